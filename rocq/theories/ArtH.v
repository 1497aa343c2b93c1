(** ArtH: art_shrink_to_fit of src/art/art.c: the nodes of a tree are moved to the front of
    their arrays and the arrays are cut.

    A free slot's next_free field is read and written at the level of the array (the code goes
    through art_deref/art_get_node).  The next_free of a used node shares its bytes with the
    node's contents, so reading it is [None] here; writing it turns the slot into a free one. *)
From Verif Require Import Base BitUtil Art ArtS ArtN ArtW ArtT ArtU ArtI ArtR.
Local Opaque zr n48_pairs n256_pairs.

(** art.c:1104-1122 art_node_get_next_free *)
Definition sl_next (l : list slot) (i : Z) : option Z := match sget l i with Some (Freed nx _) => Some nx | _ => None end.
(** art.c:1124-1146 art_node_set_next_free; the value of a leaf is not touched *)
Definition sl_set_next (l : list slot) (i next : Z) : option (list slot) :=
  do s <- sget l i;
  Some (upd (Z.to_nat i) (Freed next (match s with Used (NLeaf _ v) => v | Used _ => 0 | Freed _ v => v end)) l).
Definition set_type (a : art) (t : Z) (l : list slot) (ff : Z) : art := ART (a_root a) (fset (a_ff a) t ff) (fset (a_nodes a) t l).

(** art.c:1681-1685: while (next_free < from) *)
Fixpoint ms_loop (fuel : nat) (l : list slot) (from current next_free : Z) : option (Z * Z) :=
  match fuel with
  | O => None
  | S f => if next_free <? from then do nx <- sl_next l next_free; ms_loop f l from next_free nx else Some (current, next_free)
  end.
(** art.c:1660-1694, the array of one type: the new array and the new first_free *)
Definition move_slot (l : list slot) (first_free from : Z) : option (list slot * Z) :=
  do next_free <- sl_next l first_free;
  do s <- sget l from;
  let l1 := upd (Z.to_nat first_free) s l in
  do (current, nx) <- ms_loop (S (Z.to_nat from)) l1 from next_free next_free;
  do l2 <- sl_set_next l1 from nx;
  do l3 <- (if current <? from then sl_set_next l2 current from else Some l2);
  Some (l3, if from <? next_free then from else next_free).
(** art.c:1652-1696 art_move_node_to_shrink *)
Definition art_move_node_to_shrink (a : art) (ref : Z) : option (art * Z) :=
  let idx := art_ref_index ref in
  let t := art_ref_typecode ref in
  let first_free := a_ff a t in
  if idx =? first_free then None
  else if idx <? first_free then Some (a, ref)
  else
    do (l, ff) <- move_slot (a_nodes a t) first_free idx;
    Some (set_type a t l ff, art_to_ref first_free t).

(** art.c:1707-1710: the indices on the free list (the code marks them in an array of bool) *)
Fixpoint fl_walk (fuel : nat) (l : list slot) (i : Z) : option (list Z) :=
  match fuel with
  | O => None
  | S f => if i <? zlen l then do nx <- sl_next l i; do r <- fl_walk f l nx; Some (i :: r) else Some []
  end.
(** art.c:1712-1720: for (i = capacity; i > 0; --i) *)
Fixpoint sort_loop (free_indices : list Z) (i : nat) (l : list slot) (first_free : Z) : option (list slot * Z) :=
  match i with
  | O => Some (l, first_free)
  | S j =>
    let index := Z.of_nat j in
    if zmem index free_indices then do l1 <- sl_set_next l index first_free; sort_loop free_indices j l1 index
    else sort_loop free_indices j l first_free
  end.
(** art.c:1703-1723, the body of the loop over the types *)
Definition sort_type (a : art) (t : Z) : option art :=
  let l := a_nodes a t in
  do fi <- fl_walk (S (length l)) l (a_ff a t);
  do (l', ff) <- sort_loop fi (length l) l (zlen l);
  Some (set_type a t l' ff).
Fixpoint over_types (f : art -> Z -> option art) (ts : list Z) (a : art) : option art :=
  match ts with [] => Some a | t :: ts' => do a1 <- f a t; over_types f ts' a1 end.
(** art.c:1701-1724 art_sort_free_lists *)
Definition art_sort_free_lists (a : art) : option art := over_types sort_type [1; 2; 3; 4; 5] a.

(** the children of a node by array index: the loops of art.c:1756-1790.
    art.c:1757-1758, 1765-1766: i < count;  1773-1775: keys[i] != EMPTY;  1784-1785: children[i] != NULL *)
Definition child_bound (n : node) : Z :=
  match n with NLeaf _ _ => 0 | N4 _ kc | N16 _ kc => zlen kc | N48 _ _ _ _ _ | N256 _ _ _ => 256 end.
Definition has_child (n : node) (i : Z) : bool :=
  match n with
  | NLeaf _ _ => false
  | N4 _ _ | N16 _ _ => true
  | N48 _ _ _ keys _ => negb (znth keys i =? NODE48_EMPTY_VAL)
  | N256 _ _ children => negb (znth children i =? NULL_REF)
  end.
Definition child_ref (n : node) (i : Z) : Z :=
  match n with
  | NLeaf _ _ => NULL_REF
  | N4 _ kc | N16 _ kc => snd (knth kc i)
  | N48 _ _ _ keys children => znth children (znth keys i)
  | N256 _ _ children => znth children i
  end.
Definition child_set (n : node) (i c : Z) : node :=
  match n with
  | NLeaf k v => NLeaf k v
  | N4 p kc => N4 p (upd (Z.to_nat i) (fst (knth kc i), c) kc)
  | N16 p kc => N16 p (upd (Z.to_nat i) (fst (knth kc i), c) kc)
  | N48 p ct av keys children => N48 p ct av keys (zupd (znth keys i) c children)
  | N256 p ct children => N256 p ct (zupd i c children)
  end.
(** the loop over the children of [ref]: children[i] = move(children[i]); shrink_at(children[i]) *)
Fixpoint shrink_children (shrink_at : art -> Z -> option art) (ref : Z) (is : list Z) (a : art) : option art :=
  match is with
  | [] => Some a
  | i :: is' =>
    do n <- art_deref a ref;
    if negb (has_child n i) then shrink_children shrink_at ref is' a
    else
      do (a1, c) <- art_move_node_to_shrink a (child_ref n i);
      do n1 <- art_deref a1 ref;
      do a2 <- shrink_at (art_put a1 ref (child_set n1 i c)) c;
      shrink_children shrink_at ref is' a2
  end.
(** art.c:1749-1795 art_shrink_at *)
Fixpoint art_shrink_at (fuel : nat) (a : art) (ref : Z) : option art :=
  match fuel with
  | O => None
  | S f =>
    if art_is_leaf ref then Some a
    else do n <- art_deref a ref; shrink_children (art_shrink_at f) ref (zr 0 (child_bound n)) a
  end.

(** art.c:122-129 ART_NODE_SIZES on x86-64 (sizeof, with the alignment of their uint64_t members) *)
Definition node_size (t : Z) : Z :=
  if t =? 1 then 16 else if t =? 2 then 48 else if t =? 3 then 152 else if t =? 4 then 656 else if t =? 5 then 2056 else 0.
(** art.c:1730-1744 art_shrink_node_arrays *)
Definition cut_type (a : art) (t : Z) : option art :=
  Some (if a_ff a t <? capacity a t then set_type a t (firstn (Z.to_nat (a_ff a t)) (a_nodes a t)) (a_ff a t) else a).
Definition freed_type (a : art) (t : Z) : Z :=
  if a_ff a t <? capacity a t then (capacity a t - a_ff a t) * node_size t else 0.
Definition art_shrink_node_arrays (a : art) : option (art * Z) :=
  do a1 <- over_types cut_type [1; 2; 3; 4; 5] a;
  Some (a1, fold_left (fun s t => s + freed_type a t) [1; 2; 3; 4; 5] 0).
(** art.c:1819-1827 art_is_shrunken *)
Definition art_is_shrunken (a : art) : bool := forallb (fun t => a_ff a t =? capacity a t) [1; 2; 3; 4; 5].
(** art.c:1807-1817 art_shrink_to_fit *)
Definition art_shrink_to_fit (a : art) : option (art * Z) :=
  if art_is_shrunken a then Some (a, 0)
  else
    do a1 <- (if negb (a_root a =? NULL_REF) then
                do a1 <- art_sort_free_lists a;
                do (a2, root) <- art_move_node_to_shrink a1 (a_root a1);
                art_shrink_at (S (Z.to_nat KEY_BYTES)) (set_root a2 root) root
              else Some a);
    art_shrink_node_arrays a1.

(** ** The arrays *)
Definition usedat (l : list slot) (i : Z) : option node := match sget l i with Some (Used n) => Some n | _ => None end.
(** the path from [s] through [fl] ends at [e] *)
Fixpoint seg (l : list slot) (s : Z) (fl : list Z) (e : Z) : Prop :=
  match fl with
  | [] => s = e
  | i :: fl' => s = i /\ exists next v, sget l i = Some (Freed next v) /\ seg l next fl' e
  end.
Lemma chain_seg l s fl : chain l s fl <-> seg l s fl (zlen l).
Proof.
  revert s. induction fl as [|i fl IH]; intros s; cbn; [tauto|]. split; intros (E & nx & v & G & H); (split; [exact E|]); exists nx, v; (split; [exact G|]); now apply IH.
Qed.
Lemma seg_app l f1 : forall f2 s e, seg l s (f1 ++ f2) e <-> exists m, seg l s f1 m /\ seg l m f2 e.
Proof.
  induction f1 as [|i f1 IH]; intros f2 s e; cbn.
  - split; [intros H; now exists s|intros (m & -> & H); exact H].
  - split.
    + intros (E & nx & v & G & H). apply IH in H as (m & H1 & H2). exists m. split; auto. split; auto. now exists nx, v.
    + intros (m & (E & nx & v & G & H1) & H2). split; auto. exists nx, v. split; auto. apply IH. now exists m.
Qed.
Lemma seg_upd l i s fl : forall b e, 0 <= i < zlen l -> ~ In i fl -> seg l b fl e -> seg (upd (Z.to_nat i) s l) b fl e.
Proof.
  induction fl as [|j fl IH]; intros b e Hi N H; cbn in *; auto. destruct H as (-> & nx & v & E & H). split; auto. exists nx, v. split; [|apply IH; auto].
  rewrite sget_upd by lia. destruct (Z.eqb_spec j i); auto. subst. exfalso; auto.
Qed.
Lemma seg_In l fl : forall s e i, seg l s fl e -> In i fl -> exists nx v, sget l i = Some (Freed nx v).
Proof.
  induction fl as [|j fl IH]; intros s e i H Hi; cbn in *; [tauto|]. destruct H as (-> & nx & v & E & H). destruct Hi as [->|Hi]; eauto.
Qed.
Lemma seg_hd l s fl e : seg l s fl e -> s = hd e fl.
Proof. destruct fl; cbn; [auto|intros (-> & _); auto]. Qed.
Lemma used_upd l i j s : 0 <= i < zlen l -> usedat (upd (Z.to_nat i) s l) j = if j =? i then match s with Used n => Some n | _ => None end else usedat l j.
Proof. intros H. unfold usedat. rewrite sget_upd by auto. destruct (j =? i); auto. Qed.
Lemma zlen_upd {A} n (s : A) l : zlen (upd n s l) = zlen l. Proof. unfold zlen. now rewrite upd_length. Qed.

Lemma ms_loop_ok fuel : forall l from cur nf fl, seg l nf fl (zlen l) -> incr fl -> ~ In from fl -> 0 <= from < zlen l -> Z.max 0 (from - nf) < Z.of_nat fuel ->
  exists f1 f2, fl = f1 ++ f2 /\ (forall x, In x f1 -> x < from) /\ (forall x, In x f2 -> from < x) /\
    ms_loop fuel l from cur nf = Some (last f1 cur, hd (zlen l) f2).
Proof.
  induction fuel as [|f IH]; intros l from cur nf fl S I N B F; [lia|]. cbn [ms_loop]. destruct (Z.ltb_spec nf from) as [L|L].
  - destruct fl as [|i fl]; cbn in S; [lia|]. destruct S as (-> & nx & v & G & S). unfold sl_next. rewrite G. cbn [obind].
    assert (i < nx) as LX. { rewrite (seg_hd _ _ _ _ S). apply sget_range in G. destruct fl; cbn; [lia|]. apply (incr_head _ _ _ I). now left. }
    destruct (IH l from i nx fl S (incr_tail _ _ I)) as (f1 & f2 & -> & A1 & A2 & E); [intros X; apply N; now right|lia|lia|].
    exists (i :: f1), f2. split; auto. split; [intros x [<-|X]; auto|]. split; auto. rewrite E. f_equal. f_equal.
    destruct f1 as [|y f1]; [reflexivity|]. cbn [last]. clear. revert y. induction f1 as [|z f1 IH]; intros y; [reflexivity|]. cbn [last] in *. apply IH.
  - exists [], fl. split; auto. split; [intros x []|]. split; [|now rewrite (seg_hd _ _ _ _ S)].
    intros x X. destruct fl as [|i fl]; [destruct X|]. cbn in S. destruct S as (-> & _). assert (i <> from) by (intros ->; apply N; now left).
    destruct X as [<-|X]; [lia|]. pose proof (incr_head _ _ _ I X). lia.
Qed.
Lemma last_snoc' {A} (l : list A) x d : last (l ++ [x]) d = x. Proof. apply last_last. Qed.
Lemma incr_app_mid f1 x f2 : incr (f1 ++ f2) -> (forall y, In y f1 -> y < x) -> (forall y, In y f2 -> x < y) -> incr (f1 ++ x :: f2).
Proof. apply incr_mid. Qed.

(** the array after one move: the node is at [ff], [from] is free, the free list is sorted *)
Lemma move_slot_ok l ff fl from n : chain l ff fl -> incr fl -> sget l from = Some (Used n) -> ff < from ->
  exists l' ff' fl', move_slot l ff from = Some (l', ff') /\ zlen l' = zlen l /\ chain l' ff' fl' /\ incr fl' /\ ff < ff' /\
    forall i, usedat l' i = if i =? ff then Some n else if i =? from then None else usedat l i.
Proof.
  intros C I G L. pose proof (sget_range _ _ _ G) as RF. destruct fl as [|i fl]; cbn in C; [lia|]. destruct C as (-> & nf & v0 & G0 & C). pose proof (sget_range _ _ _ G0) as R0.
  unfold move_slot, sl_next. rewrite G0. cbn [obind]. rewrite G. cbn [obind]. set (l1 := upd (Z.to_nat i) (Used n) l).
  assert (L1 : zlen l1 = zlen l) by apply zlen_upd. apply chain_seg in C.
  assert (NI : ~ In i fl) by (intros X; pose proof (incr_head _ _ _ I X); lia).
  assert (NF : ~ In from fl) by (intros X; destruct (seg_In _ _ _ _ _ C X) as (? & ? & ?); congruence).
  assert (S1 : seg l1 nf fl (zlen l1)) by (rewrite L1; apply seg_upd; auto; lia).
  assert (LN : i < nf). { rewrite (seg_hd _ _ _ _ C). destruct fl; cbn; [lia|]. apply (incr_head _ _ _ I). now left. }
  destruct (ms_loop_ok (S (Z.to_nat from)) l1 from nf nf fl S1 (incr_tail _ _ I) NF) as (f1 & f2 & -> & A1 & A2 & E); [lia|lia|]. rewrite E. cbn [obind]. clear E.
  assert (G1 : sget l1 from = Some (Used n)). { unfold l1. rewrite sget_upd by lia. destruct (Z.eqb_spec from i); [lia|]. exact G. }
  unfold sl_set_next at 1. rewrite G1. cbn [obind]. set (v1 := match n with NLeaf _ v => v | _ => 0 end).
  replace (match n with NLeaf _ v => v | _ => 0 end) with v1 by reflexivity. set (l2 := upd (Z.to_nat from) (Freed (hd (zlen l1) f2) v1) l1).
  assert (L2 : zlen l2 = zlen l) by (unfold l2; now rewrite zlen_upd).
  rewrite in_app_iff in NF, NI. pose proof (incr_tail _ _ I) as I'. rewrite incr_app in I'. destruct I' as (If1 & If2 & If).
  assert (IN : incr (f1 ++ from :: f2)) by (apply incr_mid; auto; exact (incr_tail _ _ I)).
  apply seg_app in S1 as (m & Sa & Sb). assert (m = hd (zlen l1) f2) as Em by (apply (seg_hd _ _ _ _ Sb)).
  assert (Sb2 : seg l2 m f2 (zlen l)) by (rewrite <- L1; apply seg_upd; [lia|tauto|exact Sb]).
  assert (U2 : forall j, usedat l2 j = if j =? i then Some n else if j =? from then None else usedat l j).
  { intros j. unfold l2. rewrite used_upd by lia. unfold l1. rewrite used_upd by lia. destruct (Z.eqb_spec j from), (Z.eqb_spec j i); auto. lia. }
  assert (G2 : sget l2 from = Some (Freed m v1)). { unfold l2. rewrite sget_upd by lia. rewrite Z.eqb_refl. congruence. }
  destruct (rev_last_kid f1) as [->|(f & c & ->)].
  - cbn [last app] in *. assert (from < nf) as FN. { cbn in Sa. rewrite Sa, Em. destruct f2; cbn; [lia|]. apply A2. now left. }
    replace (nf <? from) with false by lia. cbn [obind]. replace (from <? nf) with true by lia.
    exists l2, from, (from :: f2). split; [reflexivity|]. split; [exact L2|]. split; [|auto].
    apply chain_seg. rewrite L2. cbn. split; auto. exists m, v1. split; auto.
  - rewrite last_snoc'. assert (c < from) as CF by (apply A1, in_elt). replace (c <? from) with true by lia.
    apply seg_app in Sa as (m' & Sa & Sc). cbn in Sc. destruct Sc as (-> & nx & vc & Gc & ->).
    rewrite !in_app_iff in *. cbn [In] in *.
    assert (Gc2 : sget l2 c = Some (Freed m vc)). { unfold l2. rewrite sget_upd by lia. destruct (Z.eqb_spec c from); [lia|exact Gc]. }
    pose proof (sget_range _ _ _ Gc2) as RC. unfold sl_set_next. rewrite Gc2. cbn [obind]. set (l3 := upd (Z.to_nat c) (Freed from vc) l2).
    assert (NX : nf <= c). { rewrite (seg_hd _ _ _ _ Sa). destruct f as [|y f]; cbn; [lia|]. apply Z.lt_le_incl. rewrite incr_app in If1. apply (proj2 (proj2 If1)); [now left|now left]. }
    replace (from <? nf) with false by lia.
    assert (NC : ~ In c f). { rewrite incr_app in If1. intros X. destruct If1 as (_ & _ & Q). specialize (Q c c X (or_introl eq_refl)). lia. }
    assert (NC2 : ~ In c f2). { intros X. apply A2 in X. lia. }
    exists l3, nf, ((f ++ [c]) ++ from :: f2). split; [reflexivity|]. split; [unfold l3; rewrite zlen_upd; exact L2|]. split; [|split; [exact IN|split; [lia|]]].
    + apply chain_seg. unfold l3 at 2. rewrite zlen_upd, L2. apply seg_app. exists from. split.
      * apply seg_app. exists c. split; [apply seg_upd; [lia|exact NC|]; apply seg_upd; [lia|tauto|exact Sa]|].
        cbn. split; auto. exists from, vc. split; auto. unfold l3. rewrite sget_upd by lia. now rewrite Z.eqb_refl.
      * cbn. split; auto. exists m, v1. split; [unfold l3; rewrite sget_upd by lia; destruct (Z.eqb_spec from c); [lia|exact G2]|]. apply seg_upd; [lia|exact NC2|exact Sb2].
    + intros j. unfold l3. rewrite used_upd by lia. rewrite U2. destruct (Z.eqb_spec j c) as [->|]; auto. destruct (Z.eqb_spec c i) as [->|]; [exfalso; tauto|].
      destruct (Z.eqb_spec c from); [lia|]. unfold l2 in Gc2. rewrite sget_upd in Gc2 by lia. replace (c =? from) with false in Gc2 by lia. unfold l1 in Gc2. rewrite sget_upd in Gc2 by lia. replace (c =? i) with false in Gc2 by lia. unfold usedat. now rewrite Gc2.
Qed.

Lemma fl_walk_ok fl : forall fuel l ff, chain l ff fl -> (length fl < fuel)%nat -> fl_walk fuel l ff = Some fl.
Proof.
  induction fl as [|i fl IH]; intros fuel l ff C F; (destruct fuel as [|f]; [cbn in F; lia|]); cbn [fl_walk]; cbn in C.
  - now replace (ff <? zlen l) with false by lia.
  - destruct C as (-> & nx & v & G & C). pose proof (sget_range _ _ _ G). replace (i <? zlen l) with true by lia. unfold sl_next. rewrite G. cbn [obind].
    rewrite (IH f l nx C) by (cbn in F; lia). reflexivity.
Qed.
Lemma chain_len l ff fl : chain l ff fl -> NoDup fl -> (length fl <= length l)%nat.
Proof.
  intros C D. pose proof (zlen_nonneg l) as P. assert (length fl <= length (zr 0 (zlen l)))%nat as Q.
  { apply NoDup_incl_length; auto. intros i H. destruct (chain_In _ _ _ _ C H) as (nx & v & G). apply sget_range in G. now apply zr_In. }
  pose proof (zr_zlen 0 (zlen l) P) as E. unfold zlen in *. lia.
Qed.
Lemma sort_loop_ok fi k : forall l ff, Z.of_nat k <= zlen l -> chain l ff (filter (fun i => zmem i fi) (zr (Z.of_nat k) (zlen l))) ->
  (forall i, In i fi -> exists nx v, sget l i = Some (Freed nx v)) ->
  exists l' ff', sort_loop fi k l ff = Some (l', ff') /\ zlen l' = zlen l /\ chain l' ff' (filter (fun i => zmem i fi) (zr 0 (zlen l))) /\
    forall i, usedat l' i = usedat l i.
Proof.
  induction k as [|k IH]; intros l ff B C H; cbn [sort_loop].
  - exists l, ff. auto.
  - rewrite Nat2Z.inj_succ in *. destruct (zmem (Z.of_nat k) fi) eqn:M.
    + destruct (H (Z.of_nat k)) as (nx & v & G); [now apply zmem_In|]. unfold sl_set_next. rewrite G. cbn [obind]. set (l1 := upd (Z.to_nat (Z.of_nat k)) (Freed ff v) l).
      assert (L1 : zlen l1 = zlen l) by apply zlen_upd.
      destruct (IH l1 (Z.of_nat k)) as (l' & ff' & E & L' & C' & U); [lia| | |].
      * rewrite L1, (zr_cons (Z.of_nat k)) by lia. cbn [filter]. rewrite M. cbn [chain]. split; auto. exists ff, v. split; [unfold l1; rewrite sget_upd by lia; now rewrite Z.eqb_refl|].
        unfold l1. apply chain_upd; [lia|intros X; apply filter_In in X as (X & _); apply zr_In in X; lia|exact C].
      * intros i Hi. unfold l1. rewrite sget_upd by lia. destruct (Z.eqb_spec i (Z.of_nat k)); [now exists ff, v|auto].
      * exists l', ff'. rewrite L1 in *. split; auto. split; auto. split; auto. intros i. rewrite U. unfold l1. rewrite used_upd by lia.
        destruct (Z.eqb_spec i (Z.of_nat k)) as [->|]; auto. unfold usedat. now rewrite G.
    + apply IH; [lia| |exact H]. rewrite (zr_cons (Z.of_nat k)) by lia. cbn [filter]. rewrite M. exact C.
Qed.

(** ** The store with sorted free lists *)
Definition slok (t : Z) (l : list slot) (ff : Z) : Prop :=
  exists fl, chain l ff fl /\ incr fl /\ forall i n, usedat l i = Some n -> ntype n = t.
Definition ssok (a : art) : Prop := forall t, 1 <= t <= 5 -> slok t (a_nodes a t) (a_ff a t).
Lemma slok_lok t l ff : slok t l ff -> lok t l ff.
Proof.
  intros (fl & C & I & U). exists fl. split; auto. split; [now apply incr_NoDup|]. intros i [n|? ?] G; [|exact Logic.I]. apply (U i). unfold usedat. now rewrite G.
Qed.
Lemma ssok_sok a : ssok a -> sok a. Proof. intros H t Ht. apply slok_lok, H, Ht. Qed.
Lemma deref_usedat a x : art_deref a x =
  if negb (x =? art_to_ref (art_ref_index x) (art_ref_typecode x)) then None else
  match usedat (a_nodes a (art_ref_typecode x)) (art_ref_index x) with Some n => if ntype n =? art_ref_typecode x then Some n else None | None => None end.
Proof. unfold art_deref, usedat. rewrite slot_at_sget. destruct (negb _); auto. destruct (sget _ _) as [[|]|]; auto. Qed.
Lemma deref_same a a' x : (forall t i, usedat (a_nodes a' t) i = usedat (a_nodes a t) i) -> art_deref a' x = art_deref a x.
Proof. intros H. now rewrite !deref_usedat, H. Qed.

Lemma sort_type_ok a t : lok t (a_nodes a t) (a_ff a t) -> exists a', sort_type a t = Some a' /\ a_root a' = a_root a /\ slok t (a_nodes a' t) (a_ff a' t) /\
  (forall t' i, usedat (a_nodes a' t') i = usedat (a_nodes a t') i) /\ (forall t', t' <> t -> a_nodes a' t' = a_nodes a t' /\ a_ff a' t' = a_ff a t') /\
  (forall t', capacity a' t' = capacity a t').
Proof.
  intros (fl & C & D & U). unfold sort_type. set (l := a_nodes a t) in *. rewrite (fl_walk_ok fl) by (auto; pose proof (chain_len _ _ _ C D); lia). cbn [obind].
  destruct (sort_loop_ok fl (length l) l (zlen l)) as (l' & ff' & E & L' & C' & U'); [unfold zlen; lia| | |].
  { unfold zlen. rewrite zr_nil by lia. reflexivity. }
  { intros i Hi. eapply chain_In; eauto. }
  rewrite E. cbn [obind]. exists (set_type a t l' ff'). unfold set_type, capacity. cbn [a_root a_nodes a_ff]. unfold fset. rewrite Z.eqb_refl. split; auto. split; auto.
  split; [|split; [|split]].
  - exists (filter (fun i => zmem i fl) (zr 0 (zlen l))). split; auto. split; [apply incr_filter, zr_incr|]. intros i n X. rewrite U' in X. unfold usedat in X.
    destruct (sget l i) as [[m|]|] eqn:G; try discriminate. injection X as ->. exact (U _ _ G).
  - intros t' i. destruct (Z.eqb_spec t' t) as [->|]; auto.
  - intros t' N. destruct (Z.eqb_spec t' t); [tauto|auto].
  - intros t'. destruct (Z.eqb_spec t' t) as [->|]; auto.
Qed.
Lemma sort_types_ok ts : forall a, NoDup ts -> (forall t, In t ts -> 1 <= t <= 5) -> sok a -> (forall t, 1 <= t <= 5 -> In t ts \/ slok t (a_nodes a t) (a_ff a t)) ->
  exists a', over_types sort_type ts a = Some a' /\ a_root a' = a_root a /\ ssok a' /\ (forall x, art_deref a' x = art_deref a x) /\ (forall t, capacity a' t = capacity a t).
Proof.
  induction ts as [|t ts IH]; intros a D B K S; cbn [over_types].
  - exists a. split; auto. split; auto. split; auto. intros t Ht. destruct (S t Ht) as [[]|]; auto.
  - apply NoDup_cons_iff in D as (N & D). destruct (sort_type_ok a t) as (a1 & E & R1 & S1 & U1 & O1 & CP1); [apply K, B; now left|]. rewrite E. cbn [obind].
    destruct (IH a1 D) as (a' & E' & R' & S' & D' & CP').
    + intros; apply B; now right.
    + intros t' Ht'. destruct (Z.eq_dec t' t) as [->|X]; [now apply slok_lok|]. destruct (O1 t' X) as (-> & ->). auto.
    + intros t' Ht'. destruct (Z.eq_dec t' t) as [->|X]; auto. destruct (O1 t' X) as (-> & ->). destruct (S t' Ht') as [[Q|]|]; auto. congruence.
    + exists a'. split; auto. split; [congruence|]. split; auto. split; [intros x; rewrite D'; now apply deref_same|]. intros t'. now rewrite CP'.
Qed.
Lemma sort_ok a : sok a -> exists a', art_sort_free_lists a = Some a' /\ a_root a' = a_root a /\ ssok a' /\ (forall x, art_deref a' x = art_deref a x) /\ (forall t, capacity a' t = capacity a t).
Proof.
  intros K. apply sort_types_ok; auto.
  - repeat constructor; cbn; lia.
  - intros t H. cbn in H. lia.
  - intros t H. left. cbn. lia.
Qed.

(** ** Moving one node *)
Definition below (a : art) (r : Z) : Prop := art_ref_index r < a_ff a (art_ref_typecode r).
Definition ffle (a a' : art) : Prop := forall t, a_ff a t <= a_ff a' t /\ capacity a' t = capacity a t.
Lemma below_le a a' r : ffle a a' -> below a r -> below a' r.
Proof. intros L B. unfold below in *. specialize (L (art_ref_typecode r)). lia. Qed.
Lemma ffle_trans a b c : ffle a b -> ffle b c -> ffle a c.
Proof. intros H1 H2 t. destruct (H1 t), (H2 t). split; [lia|congruence]. Qed.
Lemma chain_ff_range l ff fl : chain l ff fl -> 0 <= ff <= zlen l.
Proof. pose proof (zlen_nonneg l). destruct fl; cbn; [lia|]. intros (-> & nx & v & G & _). apply sget_range in G. lia. Qed.
Lemma chain_not_used l ff fl : chain l ff fl -> usedat l ff = None.
Proof.
  unfold usedat. destruct fl; cbn.
  - intros ->. destruct (sget l (zlen l)) eqn:E; auto. apply sget_range in E. lia.
  - intros (-> & nx & v & G & _). now rewrite G.
Qed.
Lemma move_ok a r n : ssok a -> art_deref a r = Some n -> exists a' r', art_move_node_to_shrink a r = Some (a', r') /\ swap a r r' n a' /\ ssok a' /\
  art_ref_typecode r' = art_ref_typecode r /\ below a' r' /\ ffle a a'.
Proof.
  intros K D. destruct (deref_inv _ _ _ D) as (G & T0 & E). pose proof (ntype_range n) as B. set (t := ntype n) in *. set (i := art_ref_index r) in *.
  unfold art_move_node_to_shrink. fold i. rewrite T0. destruct (K t B) as (fl & C & I & U).
  assert (UI : usedat (a_nodes a t) i = Some n) by (unfold usedat; now rewrite G).
  pose proof (chain_not_used _ _ _ C) as NU. destruct (Z.eqb_spec i (a_ff a t)) as [X|N]; [congruence|]. destruct (Z.ltb_spec i (a_ff a t)) as [L|L].
  - exists a, r. split; auto. split; [|split; auto; split; [congruence|split; [unfold below; rewrite T0; exact L|intros ?; split; [lia|reflexivity]]]].
    split; [now apply ssok_sok|]. split; auto. split; auto. intros x. destruct (Z.eqb_spec x r) as [->|]; auto.
  - destruct (move_slot_ok _ _ _ i n C I G) as (l' & ff' & fl' & EM & L' & C' & I' & LF & U'); [lia|]. rewrite EM. cbn [obind].
    set (a' := set_type a t l' ff'). pose proof (chain_ff_range _ _ _ C) as RF.
    assert (KS : ssok a').
    { intros t' Ht. unfold a', set_type. cbn [a_nodes a_ff]. unfold fset. destruct (Z.eqb_spec t' t) as [->|]; [|now apply K]. exists fl'. split; auto. split; auto.
      intros j m. rewrite U'. destruct (j =? a_ff a t); [intros Q; injection Q as <-; auto|]. destruct (j =? i); [discriminate|]. apply U. }
    assert (TR : art_ref_typecode (art_to_ref (a_ff a t) t) = t) by (apply ref_type_to; lia).
    assert (IR : art_ref_index (art_to_ref (a_ff a t) t) = a_ff a t) by (apply ref_index_to; lia).
    exists a', (art_to_ref (a_ff a t) t). split; auto. split; [|split; auto; split; [congruence|split]].
    + split; [now apply ssok_sok|]. split; auto. split.
      * right. rewrite deref_usedat, TR, IR, NU. now destruct (negb _).
      * intros x. rewrite !deref_usedat. unfold a', set_type. cbn [a_nodes]. unfold fset. destruct (Z.eqb_spec x (art_to_ref (a_ff a t) t)) as [->|NX].
        { rewrite TR, IR, !Z.eqb_refl. cbn [negb]. rewrite U', Z.eqb_refl. fold t. now rewrite Z.eqb_refl. }
        destruct (Z.eqb_spec x r) as [->|NR].
        { fold i. rewrite T0, Z.eqb_refl. rewrite U'. replace (i =? a_ff a t) with false by lia. rewrite Z.eqb_refl. now destruct (negb _). }
        destruct (Z.eqb_spec x (art_to_ref (art_ref_index x) (art_ref_typecode x))) as [EX|]; cbn [negb]; auto.
        destruct (Z.eqb_spec (art_ref_typecode x) t) as [ET|]; auto. rewrite U'.
        destruct (Z.eqb_spec (art_ref_index x) (a_ff a t)); [congruence|]. destruct (Z.eqb_spec (art_ref_index x) i); [congruence|]. now rewrite ET.
    + unfold below. rewrite TR, IR. unfold a', set_type. cbn [a_ff]. unfold fset. rewrite Z.eqb_refl. lia.
    + intros t'. unfold a', set_type, capacity. cbn [a_ff a_nodes]. unfold fset. destruct (Z.eqb_spec t' t) as [->|]; split; auto; lia.
Qed.
Lemma put_ssok a r n0 n : ssok a -> art_deref a r = Some n0 -> ntype n = ntype n0 -> ssok (art_put a r n) /\ ffle a (art_put a r n).
Proof.
  intros K D T. destruct (deref_inv _ _ _ D) as (G & T0 & E). pose proof (sget_range _ _ _ G) as RG. unfold art_put. split; [|intros t; split; [cbn; lia|]; unfold capacity, set_slot; cbn [a_nodes]; unfold fset; destruct (Z.eqb_spec t (art_ref_typecode r)) as [->|]; auto; apply zlen_upd].
  intros t Ht. unfold set_slot. cbn [a_nodes a_ff]. unfold fset. rewrite T0. destruct (Z.eqb_spec t (ntype n0)) as [->|]; [|now apply K].
  destruct (K _ Ht) as (fl & C & I & U). exists fl. split; [|split; auto].
  - apply chain_upd; auto. intros Q. destruct (chain_In _ _ _ _ C Q) as (? & ? & Q'). congruence.
  - intros i m. rewrite used_upd by auto. destruct (i =? art_ref_index r); [intros Q; injection Q as <-; auto|apply U].
Qed.

(** ** The children of a node by index *)
Lemma child_idx n l k c r : wf n -> kids n = l ++ (k, c) :: r ->
  child_ref n (idx_of n (zlen l) k) = c /\ has_child n (idx_of n (zlen l) k) = true /\
  forall c', art_replace n k c' = Some (child_set n (idx_of n (zlen l) k) c').
Proof.
  intros W E. pose proof W as (P & K & W0). pose proof K as K0. rewrite E in K0. pose proof (kok_app _ _ _ _ K0) as (_ & _ & B & Nc & LL & RR).
  destruct n as [| p kc | p kc | p ct av ks ch | p ct ch]; cbn [kids node_prefix idx_of child_ref has_child child_set] in *; [tauto| | | |].
  1, 2: subst kc; rewrite knth_app; cbn [snd fst]; split; auto; split; auto; intros c'; cbn [art_replace]; rewrite kidx_app by (intros Q; apply LL in Q; lia);
    pose proof (zlen_nonneg l); replace (0 + zlen l =? -1) with false by lia; replace (0 + zlen l) with (zlen l) by lia; reflexivity.
  - assert (In (k, c) (n48_pairs ks ch)) as Q by (rewrite E; apply in_elt). apply n48_In in Q. destruct Q as (_ & Nv & Ec). split; auto. unfold NODE48_EMPTY_VAL.
    split; [lia|]. intros c'. cbn [art_replace]. unfold NODE48_EMPTY_VAL. now replace (znth ks k =? 48) with false by lia.
  - assert (In (k, c) (n256_pairs ch)) as Q by (rewrite E; apply in_elt). apply n256_In in Q. destruct Q as (_ & Nv & Ec). split; auto. unfold NULL_REF. split; [lia|]. reflexivity.
Qed.
Definition cis (n : node) : list Z := filter (has_child n) (zr 0 (child_bound n)).
Lemma cis_kids n : wf n -> forall l k c r, kids n = l ++ (k, c) :: r -> exists a b, cis n = a ++ idx_of n (zlen l) k :: b /\ zlen a = zlen l /\ zlen b = zlen r.
Proof.
  intros (P & K & W0) l k c r E. unfold cis. destruct n as [| p kc | p kc | p ct av ks ch | p ct ch]; cbn [kids idx_of child_bound has_child] in *.
  1: { destruct l; discriminate. }
  1, 2: assert (forall l, filter (fun _ : Z => true) l = l) as FT by (induction l0; cbn; congruence); rewrite FT, E, zlen_app, zlen_cons; pose proof (zlen_nonneg l); pose proof (zlen_nonneg r);
    exists (zr 0 (zlen l)), (zr (zlen l + 1) (zlen l + (zlen r + 1))); split; [rewrite (zr_app 0 (zlen l)) by lia; f_equal; apply zr_cons; lia|]; rewrite !zr_zlen by lia; lia.
  - rewrite n48_pairs_of in E. pose proof (f_equal (map fst) E) as F. rewrite pairs_fst, map_app in F. cbn [map fst] in F.
    exists (map fst l), (map fst r). rewrite !zlen_map. split; auto.
  - rewrite n256_pairs_of in E. pose proof (f_equal (map fst) E) as F. rewrite pairs_fst, map_app in F. cbn [map fst] in F.
    exists (map fst l), (map fst r). rewrite !zlen_map. split; auto.
Qed.
Lemma cis_len n : wf n -> zlen (cis n) = zlen (kids n).
Proof.
  intros W. destruct (kids n) as [|[k c] r] eqn:E.
  - pose proof W as (P & K & W0). unfold cis. destruct n as [| p kc | p kc | p ct av ks ch | p ct ch]; cbn [kids child_bound has_child] in *.
    + rewrite zr_nil by lia. reflexivity.
    + subst kc. change (zlen (@nil (Z * Z))) with 0. rewrite zr_nil by lia. reflexivity.
    + subst kc. change (zlen (@nil (Z * Z))) with 0. rewrite zr_nil by lia. reflexivity.
    + rewrite n48_pairs_of in E. pose proof (f_equal (map fst) E) as F. rewrite pairs_fst in F. cbn [map] in F. transitivity (zlen (@nil Z)); [f_equal; exact F|reflexivity].
    + rewrite n256_pairs_of in E. pose proof (f_equal (map fst) E) as F. rewrite pairs_fst in F. cbn [map] in F. transitivity (zlen (@nil Z)); [f_equal; exact F|reflexivity].
  - destruct (cis_kids n W [] k c r E) as (a & b & -> & La & Lb). rewrite zlen_app, !zlen_cons. change (zlen (@nil (Z * Z))) with 0 in La. lia.
Qed.
Lemma has_child_set n i c j : has_child n i = true -> c <> 0 -> 0 <= i -> 0 <= j -> has_child (child_set n i c) j = has_child n j.
Proof.
  intros H N I J. destruct n as [| p kc | p kc | p ct av ks ch | p ct ch]; cbn [child_set has_child] in *; auto.
  unfold NULL_REF in *. destruct (Z.ltb_spec i (zlen ch)) as [L|L].
  - rewrite znth_zupd by lia. destruct (Z.eqb_spec j i) as [->|]; auto. rewrite H. lia.
  - exfalso. rewrite znth_overflow in H by lia. discriminate.
Qed.
Lemma child_bound_set n i c : child_bound (child_set n i c) = child_bound n.
Proof. destruct n; cbn [child_set child_bound]; auto; apply zlen_upd. Qed.
Lemma cis_set n i c : has_child n i = true -> c <> 0 -> 0 <= i -> cis (child_set n i c) = cis n.
Proof. intros. unfold cis. rewrite child_bound_set. apply filter_ext_in. intros j J. apply zr_In in J. apply has_child_set; auto; lia. Qed.

(** ** The traversal *)
Definition kvs (fl : list entry) : list (list Z * Z) := map (fun e => (fst e, snd (snd e))) fl.
Definition retag (t : T) (r : Z) : T := match t with TL _ k v => TL r k v | TN _ pre ch => TN r pre ch end.
Definition subrefs (t : T) : list Z := match t with TL _ _ _ => [] | TN _ _ ch => refsl ch end.
Lemma refs_sub t : refs t = tref t :: subrefs t. Proof. destruct t; reflexivity. Qed.
Lemma retag_ref t r : tref (retag t r) = r /\ subrefs (retag t r) = subrefs t. Proof. destruct t; auto. Qed.
Lemma retag_wft p t r : wft p t -> wft p (retag t r). Proof. destruct t; auto. Qed.
Lemma retag_kvs t r : kvs (flat (retag t r)) = kvs (flat t). Proof. destruct t; auto. Qed.
Lemma node_of a t : holds a t -> exists n, art_deref a (tref t) = Some n.
Proof. destruct t; cbn [tref]; intros H; [eexists; exact H|]. apply holds_TN in H as ((n & D & _) & _). eauto. Qed.
Lemma retag_ok a t r' n a' : holds a t -> NoDup (refs t) -> art_deref a (tref t) = Some n -> swap a (tref t) r' n a' ->
  holds a' (retag t r') /\ NoDup (refs (retag t r')) /\ step a (refs t) a' (refs (retag t r')).
Proof.
  intros H ND D SW. destruct (retag_ref t r') as (RT & RS). rewrite (refs_sub t) in ND. apply NoDup_cons_iff in ND as (N & ND).
  assert (LV : forall x, In x (subrefs t) -> art_deref a x <> None) by (intros x X; apply (holds_live a t); auto; rewrite refs_sub; now right).
  destruct (step_keep _ _ _ _ (subrefs t) (swap_step _ _ _ _ _ SW) LV) as (KN & KD). { intros x X [<-|[]]. auto. }
  split; [|split].
  - destruct t as [r k v|r pre ch]; cbn [retag tref subrefs] in *.
    + pose proof SW as (_ & _ & _ & Q). cbn [holds] in *. rewrite Q, Z.eqb_refl. congruence.
    + apply holds_TN in H as ((m & Dm & Hm) & Hc). apply holds_TN. split.
      * exists m. split; [|exact Hm]. pose proof SW as (_ & _ & _ & Q). rewrite Q, Z.eqb_refl. congruence.
      * eapply holdsl_ext; [|exact Hc]. exact KD.
  - rewrite refs_sub, RT, RS. constructor; auto. intros X. apply (KN _ X). now left.
  - apply (step_frame _ _ _ _ (subrefs t) _ _ (swap_step _ _ _ _ _ SW)); intros x; rewrite refs_sub; try rewrite RT, RS; cbn; tauto.
Qed.

Definition shrinks (p : list Z) (a : art) (t : T) (a' : art) (t' : T) : Prop :=
  ssok a' /\ a_root a' = a_root a /\ ffle a a' /\ tref t' = tref t /\ holds a' t' /\ wft p t' /\ NoDup (refs t') /\
  step a (refs t) a' (refs t') /\ kvs (flat t') = kvs (flat t) /\ (forall x, In x (subrefs t') -> below a' x).

Lemma kvs_app f g : kvs (f ++ g) = kvs f ++ kvs g. Proof. apply map_app. Qed.
Lemma step_refl a F : step a F a F. Proof. split; [|split]; intros; tauto. Qed.

Lemma shrink_children_ok rec p r pre is : (forall a t k, ssok a -> holds a t -> wft (p ++ pre ++ [k]) t -> NoDup (refs t) -> exists a' t', rec a (tref t) = Some a' /\ shrinks (p ++ pre ++ [k]) a t a' t') ->
  forall a n c1 c2 b, ssok a -> let t := TN r pre (c1 ++ c2) in holds a t -> wft p t -> NoDup (refs t) -> (forall x, In x (refsl c1) -> below a x) ->
  art_deref a r = Some n -> (forall i, In i is -> 0 <= i) -> cis n = b ++ filter (has_child n) is -> zlen b = zlen c1 ->
  exists a' t', shrink_children rec r is a = Some a' /\ shrinks p a t a' t'.
Proof.
  intros REC. induction is as [|i is IH]; intros a n c1 c2 b K t H W ND BL D NN CI LB; pose proof H as H0; apply holds_TN in H0 as ((n' & D' & Wn & Lo & Pn & Kn) & Hc);
    assert (n' = n) by congruence; subst n'; cbn [shrink_children].
  - assert (c2 = []) as ->.
    { cbn [filter] in CI. rewrite app_nil_r in CI. pose proof (cis_len n Wn) as Q. rewrite CI, Kn, krefs_zlen, zlen_app, LB in Q. pose proof (zlen_nonneg c2).
      destruct c2 as [|? ?]; auto. rewrite zlen_cons in Q. pose proof (zlen_nonneg c2). lia. }
    exists a, t. split; auto. split; auto. split; auto. split; [intros ?; split; [lia|reflexivity]|]. split; auto. split; auto. split; auto. split; auto. split; [apply step_refl|]. split; auto.
    intros x X. unfold t in X. cbn [subrefs] in X. rewrite app_nil_r in X. auto.
  - rewrite D. cbn [obind]. cbn [filter] in CI. destruct (has_child n i) eqn:HI; cbn [negb].
    2: { apply (IH a n c1 c2 b); auto. intros; apply NN; now right. }
    destruct c2 as [|[k t1] c2].
    { exfalso. pose proof (cis_len n Wn) as Q. rewrite CI, Kn, krefs_zlen, !zlen_app, zlen_cons, LB in Q. change (zlen (@nil (Z * T))) with 0 in Q.
      pose proof (zlen_nonneg (filter (has_child n) is)). lia. }
    assert (Kn2 : kids n = krefs c1 ++ (k, tref t1) :: krefs c2) by now rewrite Kn, krefs_app, krefs_cons.
    assert (EI : i = idx_of n (zlen (krefs c1)) k).
    { destruct (cis_kids n Wn _ _ _ _ Kn2) as (b1 & b2 & E1 & L1 & L2). rewrite CI in E1. rewrite krefs_zlen in *.
      destruct (zlen_app_inv b (i :: filter (has_child n) is) b1 (idx_of n (zlen c1) k :: b2) E1 ltac:(lia)) as (_ & Q). congruence. }
    destruct (child_idx n _ _ _ _ Wn Kn2) as (CR & HC & RP). rewrite <- EI in CR, HC, RP. rewrite CR.
    pose proof Hc as Hc'. apply allp_app in Hc' as (Hc1 & Ht1 & Hc2). pose proof (node_of _ _ Ht1) as (n1 & D1).
    destruct (move_ok a (tref t1) n1 K D1) as (a1 & r1 & EM & SW & K1 & _ & BE & F1). rewrite EM. cbn [obind].
    pose proof ND as ND'. unfold t in ND'. rewrite refs_TN, refsl_app, refsl_cons in ND'. apply NoDup_cons_iff in ND' as (Nr & ND'). apply NoDup_app_iff in ND' as (NDa & NDb & NDc).
    apply NoDup_app_iff in NDb as (NDt & NDd & NDe). rewrite !in_app_iff in Nr.
    destruct (retag_ok a t1 r1 n1 a1 Ht1 NDt D1 SW) as (Hm & NDm & STm). destruct (retag_ref t1 r1) as (RT & RS). set (t1m := retag t1 r1) in *.
    assert (NF : forall x, In x (r :: refsl c1 ++ refsl c2) -> ~ In x (refs t1)).
    { intros x [<-|X]; [tauto|]. apply in_app_iff in X. destruct X as [X|X]; [intros Y; apply (NDc x X); apply in_app_iff; now left|intros Y; exact (NDe x Y X)]. }
    assert (LV : forall x, In x (r :: refsl c1 ++ refsl c2) -> art_deref a x <> None).
    { intros x [<-|X]; [congruence|]. apply in_app_iff in X. destruct X as [X|X]; [exact (holdsl_live a c1 x Hc1 X)|exact (holdsl_live a c2 x Hc2 X)]. }
    destruct (step_keep _ _ _ _ _ STm LV NF) as (KN & KD). assert (Dr1 : art_deref a1 r = Some n) by (rewrite KD; auto; now left). rewrite Dr1. cbn [obind].
    assert (r1 <> 0) as NZ. { rewrite <- RT. eapply tref_nz; eauto. }
    destruct (replace_kid n _ _ _ _ r1 Wn Kn2 NZ) as (n2 & E2 & K2 & W2 & P2 & T2). rewrite RP in E2. injection E2 as E2.
    rewrite E2. set (a2 := art_put a1 r n2). destruct (put_ssok a1 r n n2 K1 Dr1 T2) as (K2s & F2). fold a2 in K2s, F2.
    assert (S2 : sto a1 r (Some n2) a2) by (apply put_sto with n; auto; now apply ssok_sok).
    assert (KK2 : kids n2 = krefs (c1 ++ (k, t1m) :: c2)) by (rewrite K2, krefs_app, krefs_cons, RT; reflexivity).
    assert (Wt1 : wft (p ++ pre ++ [k]) t1). { apply wft_TN in W as (_ & _ & _ & _ & _ & W). apply allp_app in W as (_ & W & _). now rewrite <- app_assoc in W. }
    assert (Lo2 : lo n2 <= zlen (kids n2)). { rewrite (lo_ntype _ _ T2). rewrite KK2, krefs_zlen. rewrite Kn, krefs_zlen in Lo. rewrite zlen_app, zlen_cons in *. exact Lo. }
    destruct (child_lift a (refs t1) a1 p r pre c1 k t1 c2 t1m a2 n2 H W ND STm NF Hm (retag_wft _ _ _ Wt1) NDm S2 W2 Lo2 ltac:(congruence) KK2) as (H2 & W2t & ND2 & ST2).
    specialize (ST2 (refs t)). assert (ST2' : step a (refs t) a2 (refs (TN r pre (c1 ++ (k, t1m) :: c2)))).
    { apply ST2. intros x. unfold t. rewrite refs_TN, refsl_app, refsl_cons. cbn. rewrite !in_app_iff. tauto. } clear ST2.
    pose proof H2 as H2'. apply holds_TN in H2' as ((n2' & D2 & _) & Hc'). rewrite (sto_at _ _ _ _ S2) in D2. injection D2 as <-. pose proof (sto_at _ _ _ _ S2) as D2.
    apply allp_app in Hc' as (Hc1' & Ht1' & Hc2').
    destruct (REC a2 t1m k K2s Ht1' (retag_wft _ _ _ Wt1) NDm) as (a3 & t3 & E3 & K3 & R3 & F3 & TR3 & H3 & W3 & ND3 & ST3 & KV3 & BE3). rewrite RT in E3, TR3. rewrite E3. cbn [obind].
    assert (NF2 : forall x, In x (r :: refsl c1 ++ refsl c2) -> ~ In x (refs t1m)) by (intros x X; apply (KN x X)).
    assert (D3 : art_deref a3 r = Some n2).
    { destruct (step_keep _ _ _ _ [r] ST3) as (_ & Q). { intros x [<-|[]]. congruence. } { intros x [<-|[]]. apply NF2. now left. } rewrite Q; auto. now left. }
    assert (S3 : sto a3 r (Some n2) a3). { split; [now apply ssok_sok|]. split; auto. intros x. destruct (Z.eqb_spec x r) as [->|]; auto. }
    assert (KK3 : kids n2 = krefs (c1 ++ (k, t3) :: c2)) by (rewrite KK2, !krefs_app, !krefs_cons, RT, TR3; reflexivity).
    destruct (child_lift a2 (refs t1m) a3 p r pre c1 k t1m c2 t3 a3 n2 H2 W2t ND2 ST3 NF2 H3 W3 ND3 S3 W2 Lo2 ltac:(congruence) KK3) as (H4 & W4 & ND4 & ST4).
    assert (ST4' : step a2 (refs (TN r pre (c1 ++ (k, t1m) :: c2))) a3 (refs (TN r pre (c1 ++ (k, t3) :: c2)))).
    { apply ST4. intros x. rewrite refs_TN, refsl_app, refsl_cons. cbn. rewrite !in_app_iff. tauto. }
    replace (c1 ++ (k, t3) :: c2) with ((c1 ++ [(k, t3)]) ++ c2) in * by now rewrite <- app_assoc.
    assert (F13 : ffle a a3) by (eapply ffle_trans; [exact F1|]; eapply ffle_trans; [exact F2|exact F3]).
    destruct (IH a3 n2 (c1 ++ [(k, t3)]) c2 (b ++ [i]) K3 H4 W4 ND4) as (a' & t' & E' & K' & R' & F' & TR' & H' & W' & ND5 & ST' & KV' & BE').
    { intros x X. rewrite refsl_app, refsl_cons in X. cbn [refsl flat_map] in X. rewrite app_nil_r in X. apply in_app_iff in X as [X|X]; [eapply below_le; eauto|].
      rewrite refs_sub, TR3 in X. destruct X as [<-|X]; [|auto]. eapply below_le; [|exact BE]. eapply ffle_trans; [exact F2|exact F3]. }
    { exact D3. }
    { intros; apply NN; now right. }
    { rewrite <- E2. rewrite cis_set by (auto; apply NN; now left). rewrite CI, <- app_assoc. cbn [app]. f_equal. f_equal. apply filter_ext_in. intros j J.
      symmetry. apply has_child_set; auto; apply NN; [now left|now right]. }
    { rewrite !zlen_app, !zlen_cons. change (zlen (@nil Z)) with 0. change (zlen (@nil (Z * T))) with 0. lia. }
    exists a', t'. split; [exact E'|]. split; auto. split. { rewrite R', R3. destruct S2 as (_ & -> & _). destruct SW as (_ & -> & _). reflexivity. }
    split; [eapply ffle_trans; eauto|]. split; [exact TR'|]. split; auto. split; auto. split; auto. split; [|split; auto].
    + eapply step_trans; [exact ST2'|]. eapply step_trans; [exact ST4'|exact ST'].
    + rewrite KV'. unfold t. rewrite !flat_TN, !flatl_app, !flatl_cons. change (flatl []) with (@nil entry). rewrite app_nil_r, !kvs_app, KV3, <- app_assoc. unfold t1m. now rewrite retag_kvs.
Qed.

Lemma shrink_at_ok fuel : forall a t p, ssok a -> holds a t -> wft p t -> NoDup (refs t) -> 6 < zlen p + Z.of_nat fuel ->
  exists a' t', art_shrink_at fuel a (tref t) = Some a' /\ shrinks p a t a' t'.
Proof.
  induction fuel as [|f IH]; intros a t p K H W ND F.
  - exfalso. destruct t; cbn [wft] in W.
    + destruct W as (L & _ & s & ->). rewrite zlen_app in L. pose proof (zlen_nonneg s). lia.
    + destruct W as (L & _). pose proof (zlen_nonneg pre). lia.
  - cbn [art_shrink_at]. destruct t as [r k v|r pre ch]; cbn [tref].
    + cbn [holds] in H. rewrite (art_is_leaf_TL _ _ _ _ H). exists a, (TL r k v). split; auto. split; auto. split; auto. split; [intros ?; split; [lia|reflexivity]|]. split; auto. split; [exact H|]. split; auto. split; auto.
      split; [apply step_refl|]. split; auto. intros x [].
    + pose proof H as H0. apply holds_TN in H0 as ((n & D & Wn & _) & _). rewrite (art_is_leaf_TN _ _ _ D Wn). rewrite D. cbn [obind].
      apply (shrink_children_ok (art_shrink_at f) p r pre) with (n := n) (c1 := []) (b := []); auto.
      * intros a0 t0 k0 K0 H0 W0 N0. apply IH; auto. rewrite !zlen_app. change (zlen [k0]) with 1. pose proof (zlen_nonneg pre). lia.
      * intros x [].
      * intros i Hi. apply zr_In in Hi. lia.
Qed.

(** ** Cutting the arrays *)
Lemma sget_firstn l n i : 0 <= n <= zlen l -> sget (firstn (Z.to_nat n) l) i = if i <? n then sget l i else None.
Proof.
  intros H. unfold sget. assert (zlen (firstn (Z.to_nat n) l) = n) as -> by (unfold zlen in *; rewrite firstn_length; lia).
  destruct (Z.leb_spec 0 i), (Z.ltb_spec i n); cbn [andb]; auto. replace (i <? zlen l) with true by lia. cbn.
  rewrite <- (firstn_skipn (Z.to_nat n) l) at 2. rewrite nth_error_app1; auto. rewrite firstn_length. unfold zlen in *. lia.
Qed.
Lemma cut_type_ok a t : lok t (a_nodes a t) (a_ff a t) -> (forall i n, usedat (a_nodes a t) i = Some n -> i < a_ff a t) ->
  exists a', cut_type a t = Some a' /\ a_root a' = a_root a /\ lok t (a_nodes a' t) (a_ff a' t) /\ a_ff a' t = capacity a' t /\
  (forall t' i, usedat (a_nodes a' t') i = usedat (a_nodes a t') i) /\ (forall t', t' <> t -> a_nodes a' t' = a_nodes a t') /\ (forall t', a_ff a' t' = a_ff a t').
Proof.
  intros (fl & C & D & U) B. unfold cut_type. eexists. split; [reflexivity|]. pose proof (chain_ff_range _ _ _ C) as RF. unfold capacity.
  destruct (Z.ltb_spec (a_ff a t) (zlen (a_nodes a t))) as [L|L].
  2: { split; auto. split; [now exists fl|]. split; [lia|]. auto. }
  unfold set_type. cbn [a_root a_nodes a_ff]. unfold fset. rewrite Z.eqb_refl.
  assert (LN : zlen (firstn (Z.to_nat (a_ff a t)) (a_nodes a t)) = a_ff a t) by (unfold zlen in *; rewrite firstn_length; lia).
  split; auto. split; [|split; [auto|split; [|split]]].
  - exists []. split; [cbn; lia|]. split; [constructor|]. intros i s. rewrite sget_firstn by lia. destruct (i <? a_ff a t); [apply U|discriminate].
  - intros t' i. destruct (Z.eqb_spec t' t) as [->|]; auto. unfold usedat in *. rewrite sget_firstn by lia. destruct (Z.ltb_spec i (a_ff a t)); auto.
    specialize (B i). destruct (sget (a_nodes a t) i) as [[n|]|]; auto. specialize (B n eq_refl). lia.
  - intros t' N. destruct (Z.eqb_spec t' t); [tauto|auto].
  - intros t'. destruct (Z.eqb_spec t' t) as [->|]; auto.
Qed.
Lemma cut_types_ok ts : forall a, NoDup ts -> (forall t, In t ts -> 1 <= t <= 5) -> sok a -> (forall t i n, 1 <= t <= 5 -> usedat (a_nodes a t) i = Some n -> i < a_ff a t) ->
  exists a', over_types cut_type ts a = Some a' /\ a_root a' = a_root a /\ sok a' /\ (forall x, art_deref a' x = art_deref a x) /\ (forall t, a_ff a' t = a_ff a t) /\
    (forall t, In t ts -> capacity a' t = a_ff a t) /\ (forall t, ~ In t ts -> a_nodes a' t = a_nodes a t).
Proof.
  induction ts as [|t ts IH]; intros a D B K S; cbn [over_types].
  - exists a. split; auto. split; auto. split; auto. split; auto. split; auto. split; auto. intros t [].
  - apply NoDup_cons_iff in D as (N & D). destruct (cut_type_ok a t) as (a1 & E & R1 & S1 & Q1 & U1 & O1 & F1); [apply K, B; now left|intros i n; apply S; apply B; now left|]. rewrite E. cbn [obind].
    destruct (IH a1 D) as (a' & E' & R' & S' & D' & F' & C' & O').
    + intros; apply B; now right.
    + intros t' Ht'. destruct (Z.eq_dec t' t) as [->|X]; [assumption|]. rewrite O1, F1 by auto. auto.
    + intros t' i n T'. rewrite U1, F1. now apply S.
    + exists a'. split; auto. split; [congruence|]. split; auto. split; [intros x; rewrite D'; now apply deref_same|]. split; [intros; now rewrite F'|]. split.
      * intros t' [<-|X]; [|rewrite C' by auto; apply F1]. unfold capacity in *. rewrite O' by auto. now rewrite <- Q1, F1.
      * intros t' X. rewrite O' by (intros Y; apply X; now right). apply O1. intros ->. apply X. now left.
Qed.

(** The promise of art_shrink_to_fit: same keys and values, and nothing left to cut. *)
Lemma shrink_node_arrays_ok a : sok a -> (forall x, art_deref a x <> None -> below a x) ->
  exists a', art_shrink_node_arrays a = Some (a', fold_left (fun s t => s + (capacity a t - capacity a' t) * node_size t) [1; 2; 3; 4; 5] 0) /\ a_root a' = a_root a /\ sok a' /\
  (forall x, art_deref a' x = art_deref a x) /\ art_is_shrunken a' = true.
Proof.
  intros K B. destruct (cut_types_ok [1; 2; 3; 4; 5] a) as (a' & E & R' & S' & D' & F' & C' & O').
  - repeat constructor; cbn; lia.
  - intros t H. cbn in H. lia.
  - auto.
  - intros t i n T' U. destruct (K t T') as (fl & C & _ & UT). assert (ntype n = t) as TN.
    { unfold usedat in U. destruct (sget (a_nodes a t) i) as [[m|]|] eqn:G; try discriminate. injection U as ->. exact (UT _ _ G). }
    assert (art_deref a (art_to_ref i t) = Some n) as Q. { apply deref_intro; auto. unfold usedat in U. destruct (sget (a_nodes a t) i) as [[m|]|]; congruence. }
    specialize (B (art_to_ref i t)). unfold below in B. rewrite ref_index_to, ref_type_to in B by lia. apply B. congruence.
  - unfold art_shrink_node_arrays. rewrite E. cbn [obind]. exists a'. split; [|split; auto; split; auto; split; auto].
    + do 2 f_equal. cbn [fold_left]. unfold freed_type.
      assert (Q : forall t, 1 <= t <= 5 -> (if a_ff a t <? capacity a t then (capacity a t - a_ff a t) * node_size t else 0) = (capacity a t - capacity a' t) * node_size t).
      { intros t T'. rewrite C' by (cbn; lia). destruct (K t T') as (fl & C & _). apply chain_ff_range in C. unfold capacity in *. destruct (Z.ltb_spec (a_ff a t) (zlen (a_nodes a t))); [auto|]. replace (a_ff a t) with (zlen (a_nodes a t)) by lia. lia. }
      rewrite !Q by lia. reflexivity.
    + unfold art_is_shrunken. apply forallb_forall. intros t T'. rewrite F', (C' t T'). lia.
Qed.
Theorem art_shrink_to_fit_ok a fl : arep a fl -> exists a' fl' freed, art_shrink_to_fit a = Some (a', freed) /\ arep a' fl' /\ kvs fl' = kvs fl /\
  art_is_shrunken a' = true /\ freed = fold_left (fun s t => s + (capacity a t - capacity a' t) * node_size t) [1; 2; 3; 4; 5] 0.
Proof.
  intros A. unfold art_shrink_to_fit. destruct (art_is_shrunken a) eqn:SH; [exists a, fl, 0; split; auto; split; auto; split; auto; split; auto; cbn [fold_left]; lia|]. destruct A as (K & [(R0 & -> & D0)|(t & (TR & H & W & ND & NL) & ->)]).
  - rewrite R0. change (negb (0 =? NULL_REF)) with false. cbn [obind]. destruct (shrink_node_arrays_ok a K) as (a' & E & R' & K' & D' & S'). { intros x X. now rewrite D0 in X. }
    exists a', [], (fold_left (fun s t => s + (capacity a t - capacity a' t) * node_size t) [1; 2; 3; 4; 5] 0). split; auto. split; [|split; auto; split; auto]. split; auto. left. split; [congruence|]. split; auto. intros x. rewrite D'. auto.
  - assert (a_root a <> 0) as NZ by (rewrite <- TR; eapply tref_nz; eauto). unfold NULL_REF. replace (a_root a =? 0) with false by lia. cbn [negb].
    destruct (sort_ok a K) as (a1 & E1 & R1 & K1 & D1 & CP1). rewrite E1. cbn [obind]. rewrite R1, <- TR.
    assert (H1 : holds a1 t) by (eapply holds_ext; [|exact H]; auto). destruct (node_of _ _ H1) as (n & Dn).
    destruct (move_ok a1 (tref t) n K1 Dn) as (a2 & r2 & E2 & SW & K2 & _ & BE & F2). rewrite E2. cbn [obind].
    destruct (retag_ok a1 t r2 n a2 H1 ND Dn SW) as (H2 & ND2 & ST2). destruct (retag_ref t r2) as (RT & RS). set (a2r := set_root a2 r2).
    assert (H2r : holds a2r (retag t r2)) by (eapply holds_ext; [|exact H2]; auto).
    destruct (shrink_at_ok (S (Z.to_nat KEY_BYTES)) a2r (retag t r2) [] K2 H2r (retag_wft _ _ _ W) ND2) as (a3 & t3 & E3 & K3 & R3 & F3 & TR3 & H3 & W3 & ND3 & ST3 & KV3 & BE3).
    { reflexivity. } rewrite RT in E3. rewrite E3. cbn [obind].
    assert (LV : forall x, art_deref a3 x <> None -> In x (refs t3)).
    { eapply step_noleak; [exact ST3|]. intros x. change (art_deref a2r x) with (art_deref a2 x). revert x. eapply step_noleak; [exact ST2|]. intros x. rewrite D1. apply NL. }
    assert (BL : forall x, In x (refs t3) -> below a3 x). { intros x X. rewrite refs_sub, TR3, RT in X. destruct X as [<-|X]; auto. eapply below_le; [exact F3|]. exact BE. }
    destruct (shrink_node_arrays_ok a3 (ssok_sok _ K3)) as (a' & E & R' & K' & D' & S'). { intros x X. auto. }
    exists a', (flat t3). eexists. split; [exact E|]. split; [|split; [rewrite KV3; apply retag_kvs|split; [exact S'|]]].
    2: { cbn [fold_left]. assert (Q : forall t, capacity a3 t = capacity a t) by (intros t0; rewrite (proj2 (F3 t0)); unfold a2r; change (capacity (set_root a2 r2) t0) with (capacity a2 t0); rewrite (proj2 (F2 t0)); apply CP1). rewrite !Q. reflexivity. }
    split; auto. right. exists t3. split; auto.
    split; [rewrite R', R3, TR3, RT; reflexivity|]. split; [eapply holds_ext; [|exact H3]; auto|]. split; auto. split; auto. intros x. rewrite D'. apply LV.
Qed.
