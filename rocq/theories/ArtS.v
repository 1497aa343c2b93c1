(** ArtS: the node store of an ART: free lists, allocation, release. *)
From Verif Require Import Base BitUtil Art.
Local Opaque zr.

Definition sget (l : list slot) (i : Z) : option slot := if (0 <=? i) && (i <? zlen l) then nth_error l (Z.to_nat i) else None.
(** the free list starting at [ff] visits exactly [fl] and ends at the capacity *)
Fixpoint chain (l : list slot) (ff : Z) (fl : list Z) : Prop :=
  match fl with
  | [] => ff = zlen l
  | i :: fl' => ff = i /\ exists next v, sget l i = Some (Freed next v) /\ chain l next fl'
  end.
(** the free list is well formed, and every node in the array is of its type.  A freed slot need
    not be on the list: shrinking a tree without a root cuts unsorted lists (ArtH.v). *)
Definition lok (t : Z) (l : list slot) (ff : Z) : Prop :=
  exists fl, chain l ff fl /\ NoDup fl /\
    forall i s, sget l i = Some s -> match s with Used n => ntype n = t | Freed _ _ => True end.
Definition sok (a : art) : Prop := forall t, 1 <= t <= 5 -> lok t (a_nodes a t) (a_ff a t).

Lemma sget_range l i s : sget l i = Some s -> 0 <= i < zlen l.
Proof. unfold sget. destruct (0 <=? i) eqn:?, (i <? zlen l) eqn:?; cbn; try discriminate. lia. Qed.
Lemma sget_Some l i : 0 <= i < zlen l -> exists s, sget l i = Some s.
Proof.
  intros H. unfold sget. replace (0 <=? i) with true by lia. replace (i <? zlen l) with true by lia. cbn.
  destruct (nth_error l (Z.to_nat i)) eqn:E; eauto. apply nth_error_None in E. unfold zlen in *. lia.
Qed.
Lemma nth_error_upd {A} n m (v : A) l : (n < length l)%nat ->
  nth_error (upd n v l) m = if Nat.eqb m n then Some v else nth_error l m.
Proof. revert n m; induction l; intros n m H; [cbn in H; lia|]. destruct n, m; cbn in *; auto. apply IHl. lia. Qed.
Lemma sget_upd l i j s : 0 <= i < zlen l -> sget (upd (Z.to_nat i) s l) j = if j =? i then Some s else sget l j.
Proof.
  intros H. unfold sget. replace (zlen (upd (Z.to_nat i) s l)) with (zlen l) by (unfold zlen; now rewrite upd_length).
  destruct (Z.eqb_spec j i) as [->|N].
  - replace (0 <=? i) with true by lia. replace (i <? zlen l) with true by lia. cbn.
    rewrite nth_error_upd, Nat.eqb_refl; auto. unfold zlen in *; lia.
  - destruct (0 <=? j) eqn:E1, (j <? zlen l) eqn:E2; cbn; auto. rewrite nth_error_upd by (unfold zlen in *; lia).
    destruct (Nat.eqb_spec (Z.to_nat j) (Z.to_nat i)); auto. lia.
Qed.
Lemma sget_app1 l l' i : i < zlen l -> sget (l ++ l') i = sget l i.
Proof.
  intros H. unfold sget. rewrite zlen_app. pose proof (zlen_nonneg l').
  destruct (0 <=? i) eqn:?; cbn; auto. replace (i <? zlen l) with true by lia.
  replace (i <? zlen l + zlen l') with true by lia. rewrite nth_error_app1; auto. unfold zlen in *; lia.
Qed.
Lemma sget_app2 l l' i : zlen l <= i -> sget (l ++ l') i = sget l' (i - zlen l).
Proof.
  intros H. unfold sget. rewrite zlen_app. pose proof (zlen_nonneg l).
  replace (0 <=? i) with true by lia. replace (0 <=? i - zlen l) with true by lia. cbn.
  replace (i <? zlen l + zlen l') with (i - zlen l <? zlen l') by lia.
  destruct (i - zlen l <? zlen l'); auto. rewrite nth_error_app2 by (unfold zlen in *; lia). f_equal. unfold zlen. lia.
Qed.
Lemma sget_map f lo hi i : lo <= hi -> 0 <= i < hi - lo -> sget (map f (zr lo hi)) i = Some (f (lo + i)).
Proof.
  intros L H. unfold sget. rewrite zlen_map, zr_zlen by lia. replace (0 <=? i) with true by lia.
  replace (i <? hi - lo) with true by lia. cbn.
  rewrite nth_error_map. rewrite (nth_error_nth' _ 0) by (pose proof (zr_zlen lo hi L) as Q; unfold zlen in Q; lia).
  cbn. fold (znth (zr lo hi) i). now rewrite zr_znth.
Qed.
Lemma chain_upd l i s fl : forall ff, 0 <= i < zlen l -> ~ In i fl -> chain l ff fl -> chain (upd (Z.to_nat i) s l) ff fl.
Proof.
  induction fl as [|j fl IH]; intros ff Hi N H; cbn in *.
  - unfold zlen in *. now rewrite upd_length.
  - destruct H as (-> & nx & v & E & H). split; auto. exists nx, v. split; [|apply IH; auto].
    rewrite sget_upd by lia. destruct (Z.eqb_spec j i); auto. subst. exfalso; auto.
Qed.
Lemma chain_In l fl : forall ff i, chain l ff fl -> In i fl -> exists nx v, sget l i = Some (Freed nx v).
Proof.
  induction fl as [|j fl IH]; intros ff i H Hi; cbn in *; [tauto|]. destruct H as (-> & nx & v & E & H).
  destruct Hi as [->|Hi]; eauto.
Qed.
Lemma lok_put t l ff i n0 n : lok t l ff -> sget l i = Some (Used n0) -> ntype n = t -> lok t (upd (Z.to_nat i) (Used n) l) ff.
Proof.
  intros (fl & C & D & S) E T. pose proof (sget_range _ _ _ E) as R. exists fl.
  assert (N : ~ In i fl) by (intros Q; destruct (chain_In _ _ _ _ C Q) as (? & ? & Q'); congruence).
  split; [now apply chain_upd|]. split; auto. intros j s. rewrite sget_upd by lia.
  destruct (Z.eqb_spec j i); [intros X; injection X as <-; auto|apply S].
Qed.
Lemma lok_free t l ff i n0 v : lok t l ff -> sget l i = Some (Used n0) -> lok t (upd (Z.to_nat i) (Freed ff v) l) i.
Proof.
  intros (fl & C & D & S) E. pose proof (sget_range _ _ _ E) as R. exists (i :: fl).
  assert (N : ~ In i fl) by (intros Q; destruct (chain_In _ _ _ _ C Q) as (? & ? & Q'); congruence).
  split; [|split; [constructor; auto|]].
  - cbn. split; auto. exists ff, v. rewrite sget_upd, Z.eqb_refl by lia. split; auto. now apply chain_upd.
  - intros j s. rewrite sget_upd by lia. destruct (Z.eqb_spec j i); [intros X; injection X as <-; exact Logic.I|apply S].
Qed.
Lemma lok_reuse t l ff n : lok t l ff -> ff <> zlen l -> ntype n = t ->
  exists nx v, sget l ff = Some (Freed nx v) /\ lok t (upd (Z.to_nat ff) (Used n) l) nx.
Proof.
  intros (fl & C & D & S) E T. destruct fl as [|i fl]; cbn in C; [congruence|].
  destruct C as (-> & nx & v & E1 & C). exists nx, v. split; auto. pose proof (sget_range _ _ _ E1) as R.
  inversion D; subst. exists fl. split; [now apply chain_upd|]. split; auto.
  intros j s. rewrite sget_upd by lia. destruct (Z.eqb_spec j i); [intros X; injection X as <-; auto|apply S].
Qed.
Lemma chain_fresh l cap : zlen l = cap -> (forall i, 0 <= i < cap -> exists v, sget l i = Some (Freed (i + 1) v)) ->
  forall k lo, lo + Z.of_nat k = cap -> 0 <= lo -> chain l lo (zr lo cap).
Proof.
  intros L H k. induction k; intros lo E Hlo.
  - rewrite zr_nil by lia. cbn. lia.
  - rewrite zr_cons by lia. cbn. split; auto. destruct (H lo) as (v & E'); [lia|]. exists (lo + 1), v. split; auto. apply IHk; lia.
Qed.
Lemma chain_zr l lo cap : zlen l = cap -> 0 <= lo <= cap ->
  (forall i, lo <= i < cap -> exists v, sget l i = Some (Freed (i + 1) v)) -> chain l lo (zr lo cap).
Proof.
  intros L B H. remember (Z.to_nat (cap - lo)) as k. revert lo B H Heqk. induction k; intros lo B H Hk.
  - rewrite zr_nil by lia. cbn. lia.
  - rewrite zr_cons by lia. cbn. split; auto. destruct (H lo) as (v & E'); [lia|]. exists (lo + 1), v. split; auto.
    apply IHk; try lia. intros; apply H; lia.
Qed.
Lemma lok_extend t l n new : lok t l (zlen l) -> ntype n = t -> zlen l < new ->
  lok t (upd (Z.to_nat (zlen l)) (Used n) (l ++ map (fun i => Freed (i + 1) 0) (zr (zlen l) new))) (zlen l + 1).
Proof.
  intros (fl & C & D & S) T L. pose proof (zlen_nonneg l) as P.
  set (l' := l ++ map (fun i => Freed (i + 1) 0) (zr (zlen l) new)).
  assert (L' : zlen l' = new) by (unfold l'; rewrite zlen_app, zlen_map, zr_zlen; lia).
  assert (G : forall i, zlen l <= i < new -> sget l' i = Some (Freed (i + 1) 0)).
  { intros i Hi. unfold l'. rewrite sget_app2 by lia. rewrite sget_map by lia. do 2 f_equal. lia. }
  assert (fl = []).
  { destruct fl as [|i fl]; auto. cbn in C. destruct C as (E & nx & v & E1 & _). apply sget_range in E1. lia. }
  subst fl. exists (zr (zlen l + 1) new). split; [|split].
  - apply chain_zr; [unfold zlen at 1; rewrite upd_length; exact L'|lia|].
    intros i Hi. exists 0. rewrite sget_upd by lia. destruct (Z.eqb_spec i (zlen l)); [lia|]. apply G; lia.
  - apply incr_NoDup, zr_incr.
  - intros j s. rewrite sget_upd by lia. destruct (Z.eqb_spec j (zlen l)); [intros X; injection X as <-; auto|].
    intros X. destruct (Z_lt_dec j (zlen l)).
    + unfold l' in X. rewrite sget_app1 in X by lia. exact (S _ _ X).
    + pose proof (sget_range _ _ _ X). rewrite G in X by lia. injection X as <-. exact Logic.I.
Qed.

(** ** References *)
Lemma ref_index_to i t : 0 <= t < 65536 -> art_ref_index (art_to_ref i t) = i.
Proof. intros. unfold art_ref_index, art_to_ref. dm. Qed.
Lemma ref_type_to i t : 0 <= t < 256 -> art_ref_typecode (art_to_ref i t) = t.
Proof. intros. unfold art_ref_typecode, art_to_ref. replace (i * 65536) with (i * 256 * 256) by lia. rewrite Z.add_comm, Z.mod_add by lia. apply Z.mod_small. lia. Qed.
Lemma ntype_range n : 1 <= ntype n <= 5.
Proof. destruct n; cbn; lia. Qed.
Lemma slot_at_sget a t i : slot_at a t i = sget (a_nodes a t) i.
Proof. reflexivity. Qed.
Lemma deref_inv a r n : art_deref a r = Some n ->
  sget (a_nodes a (ntype n)) (art_ref_index r) = Some (Used n) /\ art_ref_typecode r = ntype n /\ r = art_to_ref (art_ref_index r) (ntype n).
Proof.
  unfold art_deref. destruct (Z.eqb_spec r (art_to_ref (art_ref_index r) (art_ref_typecode r))) as [E|]; cbn; [|discriminate].
  rewrite slot_at_sget. destruct (sget _ _) as [[m|]|] eqn:G; try discriminate.
  destruct (Z.eqb_spec (ntype m) (art_ref_typecode r)) as [T|]; [|discriminate].
  intros X; injection X as <-. rewrite T. auto.
Qed.
Lemma deref_intro a i t n : sget (a_nodes a t) i = Some (Used n) -> ntype n = t -> art_deref a (art_to_ref i t) = Some n.
Proof.
  intros G T. pose proof (ntype_range n). unfold art_deref. rewrite ref_index_to, ref_type_to by lia. rewrite Z.eqb_refl. cbn.
  rewrite slot_at_sget, G, T, Z.eqb_refl. auto.
Qed.
Lemma deref_zero a : art_deref a 0 = None.
Proof.
  destruct (art_deref a 0) eqn:E; auto. apply deref_inv in E. destruct E as (_ & E & _). cbn in E. pose proof (ntype_range n). lia.
Qed.
Lemma deref_nz a r n : art_deref a r = Some n -> r <> 0.
Proof. intros H ->. rewrite deref_zero in H. discriminate. Qed.

(** [a'] is [a] with the node at [r] replaced by [v] *)
Definition sto (a : art) (r : Z) (v : option node) (a' : art) : Prop :=
  sok a' /\ a_root a' = a_root a /\ forall x, art_deref a' x = if x =? r then v else art_deref a x.

(** dereferencing when only the slot [i] of the array [t] has changed *)
Lemma deref_change a a' t i s : 1 <= t <= 5 ->
  (forall t' j, t' <> t \/ j <> i -> (exists n, sget (a_nodes a t') j = Some (Used n)) \/ (exists n, sget (a_nodes a' t') j = Some (Used n)) ->
     sget (a_nodes a' t') j = sget (a_nodes a t') j) ->
  sget (a_nodes a' t) i = Some s -> (match s with Used n => ntype n = t | _ => True end) ->
  forall x, art_deref a' x = if x =? art_to_ref i t then match s with Used n => Some n | _ => None end else art_deref a x.
Proof.
  intros T H G S x. destruct (Z.eqb_spec x (art_to_ref i t)) as [->|N].
  - destruct s as [n|nx v]; [now apply deref_intro|].
    destruct (art_deref a' (art_to_ref i t)) eqn:E; auto. apply deref_inv in E. destruct E as (E1 & E2 & _).
    rewrite ref_type_to in E2 by lia. rewrite ref_index_to in E1 by lia. rewrite <- E2, G in E1. discriminate.
  - unfold art_deref. destruct (Z.eqb_spec x (art_to_ref (art_ref_index x) (art_ref_typecode x))) as [E|]; cbn; auto.
    rewrite !slot_at_sget.
    assert (D : art_ref_typecode x <> t \/ art_ref_index x <> i).
    { destruct (Z.eq_dec (art_ref_typecode x) t); auto. destruct (Z.eq_dec (art_ref_index x) i); auto. exfalso. congruence. }
    specialize (H _ _ D).
    destruct (sget (a_nodes a (art_ref_typecode x)) (art_ref_index x)) as [[n|nx v]|] eqn:A.
    + rewrite H by eauto. auto.
    + destruct (sget (a_nodes a' (art_ref_typecode x)) (art_ref_index x)) as [[n|nx' v']|] eqn:B; auto.
      exfalso. assert (X : Some (Used n) = Some (Freed nx v)) by (apply H; eauto). discriminate.
    + destruct (sget (a_nodes a' (art_ref_typecode x)) (art_ref_index x)) as [[n|nx' v']|] eqn:B; auto.
      exfalso. assert (X : Some (Used n) = None) by (apply H; eauto). discriminate.
Qed.

Lemma put_sto a r n0 n : sok a -> art_deref a r = Some n0 -> ntype n = ntype n0 -> sto a r (Some n) (art_put a r n).
Proof.
  intros K D T. destruct (deref_inv _ _ _ D) as (G & T0 & E). pose proof (ntype_range n0) as B.
  pose proof (sget_range _ _ _ G) as R. unfold art_put. rewrite T0.
  split; [|split; auto].
  - intros t Ht. cbn. unfold fset. destruct (Z.eqb_spec t (ntype n0)) as [->|]; [|apply K; auto].
    eapply lok_put; eauto.
  - intros x. assert (Er : (x =? r) = (x =? art_to_ref (art_ref_index r) (ntype n0))) by congruence. rewrite Er. eapply (deref_change a _ (ntype n0) (art_ref_index r) (Used n)); auto.
    + intros t' j Dj _. cbn. unfold fset. destruct (Z.eqb_spec t' (ntype n0)) as [->|]; auto.
      rewrite sget_upd by auto. destruct (Z.eqb_spec j (art_ref_index r)); auto. intuition congruence.
    + cbn. unfold fset. rewrite Z.eqb_refl, sget_upd, Z.eqb_refl by auto. auto.
Qed.
Lemma free_sto a r n : sok a -> art_deref a r = Some n -> exists a', art_node_free a r = Some a' /\ sto a r None a' /\
  (forall k v, n = NLeaf k v -> leaf_raw a' r = Some v).
Proof.
  intros K D. destruct (deref_inv _ _ _ D) as (G & T0 & E). pose proof (ntype_range n) as B.
  pose proof (sget_range _ _ _ G) as R. unfold art_node_free. rewrite D. cbn [obind]. rewrite T0.
  eexists. split; [reflexivity|]. split; [split; [|split; auto]|].
  - intros t Ht. cbn. unfold fset. destruct (Z.eqb_spec t (ntype n)) as [->|]; [|apply K; auto].
    eapply lok_free; eauto.
  - intros x. assert (Er : (x =? r) = (x =? art_to_ref (art_ref_index r) (ntype n))) by congruence. rewrite Er. eapply (deref_change a _ (ntype n) (art_ref_index r) (Freed (a_ff a (ntype n)) (match n with NLeaf _ v => v | _ => 0 end))); auto.
    + intros t' j Dj _. cbn. unfold fset. destruct (Z.eqb_spec t' (ntype n)) as [->|]; auto.
      rewrite sget_upd by auto. destruct (Z.eqb_spec j (art_ref_index r)); auto. intuition congruence.
    + cbn. unfold fset. rewrite Z.eqb_refl, sget_upd, Z.eqb_refl by auto. reflexivity.
  - intros k v ->. unfold leaf_raw. rewrite slot_at_sget. cbn [ntype] in *. cbn -[Z.eqb]. unfold fset. change (LEAF_TYPE =? 1) with true. cbv iota.
    rewrite sget_upd, Z.eqb_refl by auto. reflexivity.
Qed.
Lemma create_sto a n : sok a -> exists a' r, art_create a n = Some (a', r) /\ sto a r (Some n) a' /\
  art_deref a r = None /\ art_ref_typecode r = ntype n.
Proof.
  intros K. pose proof (ntype_range n) as B. specialize (K (ntype n) B) as Kt. unfold art_create, art_allocate_index.
  set (t := ntype n) in *. set (ff := a_ff a t) in *.
  destruct (Z.eqb_spec ff (capacity a t)) as [E|N]; cbn [obind].
  - eexists _, (art_to_ref ff t). split; [reflexivity|]. pose proof (zlen_nonneg (a_nodes a t)) as P. unfold capacity in E.
    set (new := if capacity a t =? 0 then 2 else if capacity a t <? 1024 then 2 * capacity a t else 5 * capacity a t / 4).
    assert (L : zlen (a_nodes a t) < new).
    { unfold new, capacity. destruct (Z.eqb_spec (zlen (a_nodes a t)) 0); [lia|].
      destruct (Z.ltb_spec (zlen (a_nodes a t)) 1024); [lia|].
      enough (zlen (a_nodes a t) + 1 <= 5 * zlen (a_nodes a t) / 4) by lia. apply Z.div_le_lower_bound; lia. }
    rewrite E in Kt.
    assert (O : art_deref a (art_to_ref ff t) = None).
    { destruct (art_deref a (art_to_ref ff t)) eqn:X; auto. apply deref_inv in X. destruct X as (X1 & X2 & _).
      rewrite ref_index_to in X1 by lia. rewrite ref_type_to in X2 by lia. rewrite <- X2 in X1. apply sget_range in X1. lia. }
    set (l' := a_nodes a t ++ map (fun i => Freed (i + 1) 0) (zr (capacity a t) new)).
    assert (LL : zlen l' = new) by (unfold l'; rewrite zlen_app, zlen_map, zr_zlen; unfold capacity; lia).
    set (a' := set_slot (set_ff (art_extend a t) t (ff + 1)) t ff (Used n)).
    assert (AN : forall t', a_nodes a' t' = if t' =? t then upd (Z.to_nat ff) (Used n) l' else a_nodes a t').
    { intros t'. unfold a'. cbn. unfold fset. destruct (t' =? t) eqn:Et; auto. rewrite Z.eqb_refl. reflexivity. }
    split; [split; [|split; auto]|split; auto].
    + intros t' Ht. rewrite AN. destruct (Z.eqb_spec t' t) as [->|Nt].
      * unfold a'. cbn. unfold fset. rewrite Z.eqb_refl. rewrite E. apply (lok_extend t (a_nodes a t) n new Kt eq_refl L).
      * unfold a'. cbn. unfold fset. destruct (Z.eqb_spec t' t); [congruence|]. apply K; auto.
    + intros x. eapply (deref_change a _ t ff (Used n)); auto.
      * intros t' j Dj. rewrite AN. destruct (Z.eqb_spec t' t) as [->|]; auto.
        rewrite sget_upd by lia. destruct (Z.eqb_spec j ff); [intuition congruence|]. intros U.
        unfold l'. destruct (Z_lt_dec j (zlen (a_nodes a t))); [now apply sget_app1|]. exfalso.
        destruct U as [[m U]|[m U]].
        -- apply sget_range in U. lia.
        -- pose proof (sget_range _ _ _ U) as R'. unfold l' in U. rewrite sget_app2 in U by lia. rewrite sget_map in U; [discriminate|unfold capacity; lia|unfold capacity; lia].
      * rewrite AN, Z.eqb_refl. rewrite sget_upd by lia. now rewrite Z.eqb_refl.
    + apply ref_type_to. lia.
  - destruct (lok_reuse t (a_nodes a t) ff n Kt N eq_refl) as (nx & v & G & K').
    rewrite slot_at_sget, G. cbn [obind].
    eexists _, (art_to_ref ff t). split; [reflexivity|]. pose proof (sget_range _ _ _ G) as R.
    split; [split; [|split; auto]|split].
    + intros t' Ht. cbn. unfold fset. destruct (Z.eqb_spec t' t) as [->|]; [|apply K; auto]. auto.
    + intros x. eapply (deref_change a _ t ff (Used n)); auto.
      * intros t' j Dj _. cbn. unfold fset. destruct (Z.eqb_spec t' t) as [->|]; auto.
        rewrite sget_upd by lia. destruct (Z.eqb_spec j ff); auto. intuition congruence.
      * cbn. unfold fset. rewrite Z.eqb_refl. rewrite sget_upd by lia. now rewrite Z.eqb_refl.
    + destruct (art_deref a (art_to_ref ff t)) eqn:X; auto. apply deref_inv in X. destruct X as (X1 & X2 & _).
      rewrite ref_index_to in X1 by lia. rewrite ref_type_to in X2 by lia. rewrite <- X2 in X1. congruence.
    + apply ref_type_to. lia.
Qed.
Lemma sok_root a r : sok a -> sok (set_root a r).
Proof. auto. Qed.
Lemma deref_root a r x : art_deref (set_root a r) x = art_deref a x.
Proof. reflexivity. Qed.
Lemma sok_cleared : sok art_init_cleared.
Proof.
  intros t _. exists []. cbn. split; [auto|]. split; [constructor|]. intros i s H. apply sget_range in H. unfold zlen in H. cbn in H. lia.
Qed.
Lemma deref_cleared x : art_deref art_init_cleared x = None.
Proof. destruct (art_deref art_init_cleared x) eqn:E; auto. apply deref_inv in E. destruct E as (E & _). apply sget_range in E. unfold zlen in E; cbn in E; lia. Qed.
