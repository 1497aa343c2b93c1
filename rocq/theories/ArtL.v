(** ArtL: only leaf creation and leaf release touch the leaf array, so the value of a released leaf
    stays readable until the next leaf is created (roaring64.c reads it there). *)
From Verif Require Import Base BitUtil Art ArtS ArtN ArtW ArtT ArtU ArtI ArtR.
Local Opaque zr n48_pairs n256_pairs.

Definition lv (a : art) : list slot := a_nodes a LEAF_TYPE.
Lemma put_lv a r n : art_ref_typecode r <> LEAF_TYPE -> lv (art_put a r n) = lv a.
Proof. intros N. unfold lv, art_put, set_slot, fset. cbn [a_nodes]. destruct (Z.eqb_spec LEAF_TYPE (art_ref_typecode r)); congruence. Qed.
Lemma free_lv a r a' : art_ref_typecode r <> LEAF_TYPE -> art_node_free a r = Some a' -> lv a' = lv a.
Proof.
  intros N. unfold art_node_free. destruct (art_deref a r); cbn [obind]; [|discriminate]. intros E; injection E as <-.
  unfold lv, set_ff, set_slot, fset. cbn [a_nodes]. destruct (Z.eqb_spec LEAF_TYPE (art_ref_typecode r)); congruence.
Qed.
Lemma create_lv a n a' r : ntype n <> LEAF_TYPE -> art_create a n = Some (a', r) -> lv a' = lv a /\ art_ref_typecode r <> LEAF_TYPE.
Proof.
  intros N. unfold art_create, art_allocate_index. pose proof (ntype_range n) as B.
  destruct (_ =? _).
  - cbn [obind]. intros E; injection E as <- <-. rewrite ref_type_to by lia. split; auto.
    unfold lv, set_ff, art_extend, set_slot, fset. cbn [a_nodes]. destruct (Z.eqb_spec LEAF_TYPE (ntype n)); congruence.
  - destruct (slot_at _ _ _) as [[|nx v]|]; try discriminate. cbn [obind]. intros E; injection E as <- <-. rewrite ref_type_to by lia. split; auto.
    unfold lv, set_ff, set_slot, fset. cbn [a_nodes]. destruct (Z.eqb_spec LEAF_TYPE (ntype n)); congruence.
Qed.
Lemma deref_type a r n : art_deref a r = Some n -> art_ref_typecode r = ntype n.
Proof. intros D. now destruct (deref_inv _ _ _ D) as (_ & T & _). Qed.
Ltac gocr H := unfold art_node4_create, art_node16_create, art_node48_create, art_node256_create in H;
  destruct (prefix_ok _); cbn [obind] in H; [|discriminate H]; destruct (art_create _ _) as [[? ?]|] eqn:?; cbn [obind] in H; [|discriminate H].
Definition insl (ins : art -> Z -> Z -> Z -> option (art * Z)) : Prop := forall a r c k a' r', ins a r c k = Some (a', r') -> lv a' = lv a.
Lemma insert_all_lv ins : insl ins -> forall kc a r a', insert_all ins a r kc = Some a' -> lv a' = lv a.
Proof.
  intros I kc. induction kc as [|[k c] kc IH]; intros a r a' E; cbn [insert_all] in E; [congruence|].
  destruct (ins a r c k) as [[a1 r1]|] eqn:E1; cbn [obind] in E; [|discriminate]. rewrite (IH _ _ _ E). eauto.
Qed.
Lemma ins256_lv : insl art_node256_insert.
Proof.
  intros a r c k a' r' E. unfold art_node256_insert in E. destruct (art_deref a r) as [n|] eqn:D; cbn [obind] in E; [|discriminate].
  pose proof (deref_type _ _ _ D) as T. destruct n; try discriminate. injection E as <- <-. apply put_lv. rewrite T. discriminate.
Qed.
Lemma ins48_lv : insl art_node48_insert.
Proof.
  intros a r c k a' r' E. unfold art_node48_insert in E. destruct (art_deref a r) as [n|] eqn:D; cbn [obind] in E; [|discriminate].
  pose proof (deref_type _ _ _ D) as T. destruct n; try discriminate. destruct (count <? 48).
  - injection E as <- <-. apply put_lv. rewrite T. discriminate.
  - gocr E. destruct (insert_all _ _ _ _) eqn:E2; cbn [obind] in E; [|discriminate]. destruct (art_node_free _ _) eqn:E3; cbn [obind] in E; [|discriminate].
    rewrite (ins256_lv _ _ _ _ _ _ E), (free_lv _ _ _ ltac:(rewrite T; discriminate) E3), (insert_all_lv _ ins256_lv _ _ _ _ E2).
    match goal with H : art_create _ _ = _ |- _ => apply create_lv in H; [tauto|discriminate] end.
Qed.
Lemma ins16_lv : insl art_node16_insert.
Proof.
  intros a r c k a' r' E. unfold art_node16_insert in E. destruct (art_deref a r) as [n|] eqn:D; cbn [obind] in E; [|discriminate].
  pose proof (deref_type _ _ _ D) as T. destruct n; try discriminate. destruct (zlen kc <? 16).
  - injection E as <- <-. apply put_lv. rewrite T. discriminate.
  - gocr E. destruct (insert_all _ _ _ _) eqn:E2; cbn [obind] in E; [|discriminate]. destruct (art_node_free _ _) eqn:E3; cbn [obind] in E; [|discriminate].
    rewrite (ins48_lv _ _ _ _ _ _ E), (free_lv _ _ _ ltac:(rewrite T; discriminate) E3), (insert_all_lv _ ins48_lv _ _ _ _ E2).
    match goal with H : art_create _ _ = _ |- _ => apply create_lv in H; [tauto|discriminate] end.
Qed.
Lemma ins4_lv : insl art_node4_insert.
Proof.
  intros a r c k a' r' E. unfold art_node4_insert in E. destruct (art_deref a r) as [n|] eqn:D; cbn [obind] in E; [|discriminate].
  pose proof (deref_type _ _ _ D) as T. destruct n; try discriminate. destruct (zlen kc <? 4).
  - injection E as <- <-. apply put_lv. rewrite T. discriminate.
  - gocr E. destruct (insert_all _ _ _ _) eqn:E2; cbn [obind] in E; [|discriminate]. destruct (art_node_free _ _) eqn:E3; cbn [obind] in E; [|discriminate].
    rewrite (ins16_lv _ _ _ _ _ _ E), (free_lv _ _ _ ltac:(rewrite T; discriminate) E3), (insert_all_lv _ ins16_lv _ _ _ _ E2).
    match goal with H : art_create _ _ = _ |- _ => apply create_lv in H; [tauto|discriminate] end.
Qed.
Lemma node_erase_lv a r k a' r' : art_node_erase a r k = Some (a', r') -> lv a' = lv a.
Proof.
  unfold art_node_erase. intros E.
  destruct (_ =? NODE4_TYPE).
  { unfold art_node4_erase in E. destruct (art_deref a r) as [n|] eqn:D; cbn [obind] in E; [|discriminate].
    pose proof (deref_type _ _ _ D) as T. destruct n; try discriminate.
    destruct (_ =? -1); [congruence|]. destruct (_ =? 2).
    - destruct (knth _ _) as [k1 c1]. destruct (art_is_leaf c1) eqn:IL; cbn [obind] in E.
      + destruct (art_node_free _ _) eqn:E3; cbn [obind] in E; [|discriminate]. injection E as <- <-. eapply free_lv; eauto. rewrite T. discriminate.
      + destruct (art_deref a c1); cbn [obind] in E; [|discriminate]. destruct (prefix_ok _); cbn [obind] in E; [|discriminate].
        destruct (art_node_free _ _) eqn:E3; cbn [obind] in E; [|discriminate]. injection E as <- <-.
        rewrite (free_lv _ _ _ ltac:(rewrite T; discriminate) E3). apply put_lv. unfold art_is_leaf in IL. lia.
    - injection E as <- <-. apply put_lv. rewrite T. discriminate. }
  destruct (_ =? NODE16_TYPE).
  { unfold art_node16_erase in E. destruct (art_deref a r) as [n|] eqn:D; cbn [obind] in E; [|discriminate].
    pose proof (deref_type _ _ _ D) as T. destruct n; try discriminate. destruct (4 <? _).
    - injection E as <- <-. apply put_lv. rewrite T. discriminate.
    - gocr E. destruct (guard _); cbn [obind] in E; [|discriminate]. destruct (insert_all _ _ _ _) eqn:E2; cbn [obind] in E; [|discriminate].
      destruct (art_node_free _ _) eqn:E3; cbn [obind] in E; [|discriminate]. injection E as <- <-.
      rewrite (free_lv _ _ _ ltac:(rewrite T; discriminate) E3), (insert_all_lv _ ins4_lv _ _ _ _ E2).
      match goal with H : art_create _ _ = _ |- _ => apply create_lv in H; [|discriminate]; destruct H as [-> _] end. apply put_lv. rewrite T. discriminate. }
  destruct (_ =? NODE48_TYPE).
  { unfold art_node48_erase in E. destruct (art_deref a r) as [n|] eqn:D; cbn [obind] in E; [|discriminate].
    pose proof (deref_type _ _ _ D) as T. destruct n; try discriminate. destruct (_ =? NODE48_EMPTY_VAL); [congruence|]. destruct (16 <? _).
    - injection E as <- <-. apply put_lv. rewrite T. discriminate.
    - gocr E. destruct (insert_all _ _ _ _) eqn:E2; cbn [obind] in E; [|discriminate].
      destruct (art_node_free _ _) eqn:E3; cbn [obind] in E; [|discriminate]. injection E as <- <-.
      rewrite (free_lv _ _ _ ltac:(rewrite T; discriminate) E3), (insert_all_lv _ ins16_lv _ _ _ _ E2).
      match goal with H : art_create _ _ = _ |- _ => apply create_lv in H; [|discriminate]; destruct H as [-> _] end. apply put_lv. rewrite T. discriminate. }
  destruct (_ =? NODE256_TYPE); [|discriminate].
  { unfold art_node256_erase in E. destruct (art_deref a r) as [n|] eqn:D; cbn [obind] in E; [|discriminate].
    pose proof (deref_type _ _ _ D) as T. destruct n; try discriminate. destruct (48 <? _).
    - injection E as <- <-. apply put_lv. rewrite T. discriminate.
    - gocr E. destruct (insert_all _ _ _ _) eqn:E2; cbn [obind] in E; [|discriminate].
      destruct (art_node_free _ _) eqn:E3; cbn [obind] in E; [|discriminate]. injection E as <- <-.
      rewrite (free_lv _ _ _ ltac:(rewrite T; discriminate) E3), (insert_all_lv _ ins48_lv _ _ _ _ E2).
      match goal with H : art_create _ _ = _ |- _ => apply create_lv in H; [|discriminate]; destruct H as [-> _] end. apply put_lv. rewrite T. discriminate. }
Qed.
Lemma replace_lv a r n k c n' : art_deref a r = Some n -> art_replace n k c = Some n' -> lv (art_put a r n') = lv a.
Proof. intros D E. apply put_lv. rewrite (deref_type _ _ _ D). destruct n; cbn in *; discriminate. Qed.

(** exactly one leaf slot changed hands *)
Definition lfree (a a' : art) (v : Z) : Prop := exists i k nx,
  sget (lv a) i = Some (Used (NLeaf k v)) /\ lv a' = upd (Z.to_nat i) (Freed nx v) (lv a).
Lemma free_leaf_lv a r a' k v : art_deref a r = Some (NLeaf k v) -> art_node_free a r = Some a' -> lfree a a' v.
Proof.
  intros D E. unfold art_node_free in E. rewrite D in E. cbn [obind] in E. injection E as <-.
  destruct (deref_inv _ _ _ D) as (G & T & _). cbn [ntype] in *. exists (art_ref_index r), k, (a_ff a (art_ref_typecode r)).
  split; auto. unfold lv, set_ff, set_slot, fset. cbn [a_nodes]. rewrite T. reflexivity.
Qed.
Lemma lfree_up a a1 ref kc child r1 v1 a' r v : lfree a a1 v1 ->
  (if r1 =? NULL_REF then do (a2, r2) <- art_node_erase a1 ref kc; Some (a2, r2, Some v1)
   else if negb (r1 =? child) then do n1 <- art_deref a1 ref; do n2 <- art_replace n1 kc r1; Some (art_put a1 ref n2, ref, Some v1)
   else Some (a1, ref, Some v1)) = Some (a', r, Some v) -> lfree a a' v.
Proof.
  intros F E. assert (Y : lv a' = lv a1 /\ v1 = v).
  { destruct (r1 =? NULL_REF).
    - destruct (art_node_erase a1 ref kc) as [[a2 r2]|] eqn:E2; cbn [obind] in E; [|discriminate]. injection E as <- <- <-.
      split; auto. eapply node_erase_lv; eauto.
    - destruct (negb _).
      + destruct (art_deref a1 ref) as [n1|] eqn:D1; cbn [obind] in E; [|discriminate].
        destruct (art_replace n1 kc r1) as [n2|] eqn:R1; cbn [obind] in E; [|discriminate]. injection E as <- <- <-.
        split; auto. eapply replace_lv; eauto.
      + injection E as <- <- <-. auto. }
  destruct Y as (Y1 & ->). destruct F as (i & k & nx & G & U). exists i, k, nx. split; auto. congruence.
Qed.
Lemma erase_at_lv fuel : forall a ref key depth a' r v, art_erase_at fuel a ref key depth = Some (a', r, Some v) -> lfree a a' v.
Proof.
  induction fuel as [|f IH]; intros a ref key depth a' r v E; cbn [art_erase_at] in E; [discriminate|].
  destruct (art_deref a ref) as [n|] eqn:D; cbn [obind] in E; [|discriminate].
  assert (X : (exists k0 v0, n = NLeaf k0 v0) \/ (forall k0 v0, n <> NLeaf k0 v0)) by (destruct n; eauto; right; intros; discriminate).
  destruct X as [(k0 & v0 & ->)|X].
  - destruct (negb _); [discriminate|]. destruct (art_node_free a ref) as [a1|] eqn:E1; cbn [obind] in E; [|discriminate].
    injection E as <- <- <-. eapply free_leaf_lv; eauto.
  - destruct n as [k0 v0|? ?|? ?|? ? ? ? ?|? ? ?]; [exfalso; eapply X; eauto|..]; clear X.
    all: destruct (negb _); [discriminate|]; destruct (kget _ _) as [kc0|]; cbn [obind] in E; [|discriminate];
      destruct (_ =? NULL_REF); [discriminate|]; destruct (art_erase_at f _ _ _ _) as [[[a1 r1] [v1|]]|] eqn:E1; cbn [obind] in E; try discriminate;
      apply IH in E1; eapply lfree_up; [exact E1|exact E].
Qed.
Lemma erase_lv a key a' v : art_erase a key = Some (a', Some v) -> lfree a a' v.
Proof.
  unfold art_erase. destruct (_ =? _); [discriminate|]. destruct (art_erase_at _ _ _ _ _) as [[[a1 r] [v1|]]|] eqn:E; cbn [obind]; try discriminate.
  intros E1. injection E1 as <- <-. apply erase_at_lv in E. exact E.
Qed.
Lemma iterator_erase_lv a it a' it' v : art_deref a (art_iterator_ref it) = art_deref a (i_val it) -> art_iterator_erase a it = Some (a', it', Some v) -> lfree a a' v.
Proof.
  intros ER. unfold art_iterator_erase. destruct (_ =? 0); [discriminate|]. destruct (leaf_val a (i_val it)) as [v0|] eqn:LV; cbn [obind]; [|discriminate].
  unfold leaf_val in LV. destruct (art_deref a (i_val it)) as [[k0 v1| | | |]|] eqn:D; try discriminate. injection LV as ->.
  destruct (art_node_free a _) as [a1|] eqn:E1; cbn [obind]; [|discriminate]. pose proof (free_leaf_lv _ _ _ _ _ ER E1) as F1.
  assert (F2 : forall a2 : art, lv a2 = lv a1 -> v0 = v -> lfree a a2 v).
  { intros a2 L ->. destruct F1 as (i & k & nx & G & U). exists i, k, nx. split; auto. congruence. }
  destruct (art_iterator_up a1 it) as [[it1 up]|]; cbn [obind]; [|discriminate]. destruct up; cbn [negb].
  2:{ intros E; injection E as <- _ EV. now apply F2. }
  destruct (art_deref a1 _) as [pn|]; cbn [obind]; [|discriminate]. destruct (kget _ _) as [ch|]; cbn [obind]; [|discriminate].
  destruct (art_node_erase a1 _ _) as [[a2 np]|] eqn:E2; cbn [obind]; [|discriminate]. apply node_erase_lv in E2.
  destruct (negb _).
  - destruct (art_iterator_up a2 _) as [[it3 up2]|]; cbn [obind]; [|discriminate]. destruct up2; cbn [obind].
    + destruct (art_deref a2 _) as [gn|] eqn:D2; cbn [obind]; [|discriminate]. destruct (kget _ _) as [gch|]; cbn [obind]; [|discriminate].
      destruct (art_replace _ _ _) as [gn'|] eqn:R2; cbn [obind]; [|discriminate]. destruct (art_node_iterator_lower_bound _ _ _ _ _) as [[it4 ?]|]; cbn [obind]; [|discriminate].
      intros E; injection E as <- _ EV. apply F2; auto. rewrite (replace_lv _ _ _ _ _ _ D2 R2). auto.
    + destruct (art_node_iterator_lower_bound _ _ _ _ _) as [[it4 ?]|]; cbn [obind]; [|discriminate].
      intros E; injection E as <- _ EV. apply F2; auto.
  - cbn [obind]. destruct (art_node_iterator_lower_bound _ _ _ _ _) as [[it4 ?]|]; cbn [obind]; [|discriminate].
    intros E; injection E as <- _ EV. apply F2; auto.
Qed.

Lemma leaf_in_flat a t : forall x k v, holds a t -> In x (refs t) -> art_deref a x = Some (NLeaf k v) -> In (k, (x, v)) (flat t).
Proof.
  induction t as [r0 k0 v0|r0 pre ch IH] using T_ind'; intros x k v H I D.
  - cbn [holds refs flat] in *. destruct I as [<-|[]]. rewrite H in D. injection D as -> ->. now left.
  - apply holds_TN in H. destruct H as ((n & Dn & Wn & _) & Hc). rewrite refs_TN in I. destruct I as [<-|I].
    { rewrite Dn in D. injection D as ->. destruct Wn as (_ & _ & []). }
    rewrite flat_TN. unfold refsl in I. apply in_flat_map in I. destruct I as ([kk t] & I1 & I2). rewrite Forall_forall in IH.
    unfold flatl. apply in_flat_map. exists (kk, t). split; auto. apply (IH _ I1); auto. exact (allp_In _ _ _ _ Hc I1).
Qed.
Lemma raw_of_free a a' l key lf v r v' : arep a (l ++ (key, (lf, v)) :: r) -> arep a' (l ++ r) -> lfree a a' v' -> leaf_raw a' lf = Some v.
Proof.
  intros A A' (i & k & nx & G & U). destruct (arep_leaf _ _ _ _ _ A (in_elt _ _ _)) as (D & NZ). pose proof (arep_sorted _ _ A) as SO.
  destruct (deref_inv _ _ _ D) as (G0 & T0 & E0). cbn [ntype] in *. pose proof (sget_range _ _ _ G) as R.
  destruct (Z.eq_dec i (art_ref_index lf)) as [E|N].
  - subst i. change (a_nodes a 1) with (lv a) in G0. rewrite G in G0. injection G0 as -> ->.
    unfold leaf_raw. rewrite slot_at_sget. change (a_nodes a' LEAF_TYPE) with (lv a'). rewrite U, sget_upd, Z.eqb_refl by auto. reflexivity.
  - exfalso. assert (D' : art_deref a' lf = Some (NLeaf key v)).
    { rewrite E0. apply deref_intro; auto. change (a_nodes a' 1) with (lv a'). rewrite U, sget_upd by auto.
      destruct (Z.eqb_spec (art_ref_index lf) i); [congruence|]. exact G0. }
    assert (I : In (key, (lf, v)) (l ++ r)).
    { destruct A' as (_ & [(_ & _ & NL)|(t & (_ & H & _ & _ & NL) & ->)]); [rewrite NL in D'; discriminate|]. apply (leaf_in_flat a'); auto. apply NL. congruence. }
    rewrite map_app in SO. cbn [map] in SO. apply incr_app in SO. destruct SO as (_ & [S1 _] & S2). apply in_app_iff in I. destruct I as [I|I].
    + specialize (S2 _ (ik (key, (lf, v))) (in_map ik _ _ I) (or_introl eq_refl)). lia.
    + rewrite Forall_forall in S1. specialize (S1 _ (in_map ik _ _ I)). lia.
Qed.
(** art_erase(art, key, NULL) followed by reading the value of the leaf *)
Lemma arep_erase_raw a l key lf v r : arep a (l ++ (key, (lf, v)) :: r) ->
  exists a', art_erase a key = Some (a', Some v) /\ arep a' (l ++ r) /\ leaf_raw a' lf = Some v.
Proof.
  intros A. destruct (arep_erase _ _ _ _ _ _ A) as (a' & E & A'). exists a'. split; auto. split; auto. eapply raw_of_free; eauto. eapply erase_lv; eauto.
Qed.
Lemma arep_iterator_erase_raw Q a it l k lf v r : arep a (l ++ (k, (lf, v)) :: r) -> ipos Q a it l ((k, (lf, v)) :: r) ->
  exists a' it', art_iterator_erase a it = Some (a', it', Some v) /\ arep a' (l ++ r) /\ ipos any a' it' l r /\ leaf_raw a' lf = Some v.
Proof.
  intros A P. destruct (arep_iterator_erase _ _ _ _ _ _ _ _ A P) as (a' & it' & E & A' & P'). exists a', it'. split; auto. split; auto. split; auto.
  eapply raw_of_free; eauto. eapply iterator_erase_lv; eauto.
  destruct P as [(_ & _ & EF & _)|(t & Tt & cs & Pl & AL & _)]; [discriminate|]. f_equal.
  destruct AL as (A1 & A2 & A3 & fr & F & _). unfold art_iterator_ref. rewrite F. cbn [hd fst]. auto.
Qed.
