(** Derived: consequences of the operation specifications that the property
    statements need and that are not statements about one function. *)
From Coq Require Import ZArith List Bool Lia Sorting.Sorted.
From Verif Require Import Base ArrayUtil BitUtil BitsetC ArrayC RunC RunD Convert Containers RArray RBinary RPoint RRange RQuery RStat RShift Spec Obs.
Import ListNotations.
Local Open Scope Z_scope.
Local Opaque zr.

(** ** select and get_index are inverse *)
Lemma select_of_get_index r P x : denotes r P -> val32 x -> P x = true -> select_ok r 0 ->
  roaring_bitmap_select r (roaring_bitmap_get_index r x) = Some x.
Proof.
  intros D Hx Px S. pose proof (den_bok _ _ D) as B. pose proof (q_get_index r P x D Hx) as G. rewrite Px in G.
  apply has_card_iff in G. rewrite (cnt_elems_below r P) in G by auto.
  destruct (elems_wf cok 0 r B) as [I1 I2]; [lia|]. pose proof (elems_lists r P D) as [_ L].
  assert (HI : In x (elems r)) by (apply L; auto). apply lb_In in HI as [HI HE]; auto.
  pose proof (lb_bound (elems r) x). pose proof (elems_zlen r B) as EL.
  assert (LE : bcardinal r <= 2^32). { unfold bcardinal. pose proof (cnt_bound (mem r) 0 (2^32)). lia. }
  rewrite roaring_bitmap_select_spec by (auto; rewrite G; lia). rewrite G.
  replace (lb (elems r) x <? bcardinal r) with true by lia. now rewrite HE.
Qed.
Lemma get_index_of_select r P k v : denotes r P -> val32 k -> select_ok r 0 -> roaring_bitmap_select r k = Some v -> roaring_bitmap_get_index r v = k.
Proof.
  intros D Hk S E. pose proof (q_select r P k D Hk S) as Q. rewrite E in Q. destruct Q as (V&Pv&C).
  pose proof (q_get_index r P v D V) as G. rewrite Pv in G. eapply has_card_unique; eauto.
Qed.
Lemma select_succeeds r P k n : denotes r P -> val32 k -> select_ok r 0 -> has_card P n -> (k < n <-> exists v, roaring_bitmap_select r k = Some v).
Proof.
  intros D Hk S C. rewrite roaring_bitmap_select_spec by (auto; eapply den_bok; eauto).
  rewrite (has_card_unique P n (bcardinal r)) by (auto using den_bcardinal).
  destruct (Z.ltb_spec k (bcardinal r)); split; intros; try lia; eauto. destruct H0. discriminate.
Qed.
(** a bitmap whose last container is run-encoded supports select even when full *)
Lemma full_last_run r P k x pre : denotes r P -> r = pre ++ [(k, CRun x)] -> select_ok r 0.
Proof.
  intros D E. right. split.
  - rewrite elems_zlen by eauto using den_bok. unfold bcardinal. pose proof (cnt_bound (mem r) 0 (2^32)). lia.
  - now exists pre, k, x.
Qed.
Lemma lists_full_card : has_card zfull (2^32).
Proof. apply has_card_iff. rewrite cnt_full; [lia|lia|reflexivity]. Qed.
Lemma all_values_flat_denotes : denotes all_values_flat zfull.
Proof. eapply den_of_bspec; [exact all_values_flat_spec|]. intros v Hv. red in Hv. unfold zfull. lia. Qed.
Lemma select_fails_on_full : exists r k, denotes r zfull /\ val32 k /\ (exists n, has_card zfull n /\ k < n) /\ roaring_bitmap_select r k = None.
Proof.
  exists all_values_flat, (2^32 - 1). split; [exact all_values_flat_denotes|]. split; [red; lia|].
  split; [exists (2^32); split; [exact lists_full_card|lia]|]. exact (proj2 (proj2 select_all_values_fails)).
Qed.

(** ** rank_many *)
Lemma answered_iff r P q : denotes r P -> (answered r q = true <-> exists m, val32 m /\ P m = true /\ q / 65536 <= m / 65536).
Proof.
  intros D. pose proof (den_bok _ _ D) as B. unfold answered. rewrite existsb_exists. split.
  - intros (k&Hk&L). unfold rkeys in Hk. apply in_map_iff in Hk as ([k' c]&<-&Hin). cbn [fst] in *.
    destruct (in_split _ _ Hin) as (pre&post&E).
    assert (C : cok c). { destruct B as (_&_&F). rewrite Forall_forall in F. apply (F (k', c) Hin). }
    pose proof (ccard_pos c C) as CP. unfold ccard in CP. apply cnt_ex in CP as (x&Hx&Mx).
    assert (K : 0 <= k' < 65536). { destruct B as (_&Hb&_). eapply inb_In; eauto. apply in_map_iff. now exists (k', c). }
    exists (65536 * k' + x). assert (V : val32 (65536 * k' + x)) by (red; lia). split; auto.
    assert (DV : (65536 * k' + x) / 65536 = k') by (rewrite Z.add_comm, Z.mul_comm, Z.div_add by lia; rewrite Z.div_small; lia).
    split; [|lia]. rewrite <- (den_mem r P) by auto. apply (elems_In cok 0 r _ B); [lia|]. subst r. rewrite elems_app, elems_cons.
    apply in_or_app. right. apply in_or_app. left. apply celems_In. split; [lia|]. now replace (65536 * k' + x - 65536 * k') with x by lia.
  - intros (m&V&Pm&L). rewrite <- (den_mem r P) in Pm by auto. unfold mem, km in Pm. exists (m / 65536).
    destruct (look r (m / 65536)) eqn:E; [|discriminate]. split; [|lia]. apply look_some in E. unfold rkeys. apply in_map_iff. now exists (m / 65536, c).
Qed.
Lemma rank_many_prefix r P qs : denotes r P -> Sorted Z.le qs -> (forall q, In q qs -> val32 q) ->
  exists answered_qs, roaring_bitmap_rank_many r qs = map (roaring_bitmap_rank r) answered_qs /\
    exists rest, qs = answered_qs ++ rest /\
    (forall q, In q answered_qs -> exists m, val32 m /\ P m = true /\ q / 65536 <= m / 65536) /\
    (forall q, In q rest -> forall m, val32 m -> P m = true -> m / 65536 < q / 65536).
Proof.
  intros D S V. exists (filter (answered r) qs). split. { apply roaring_bitmap_rank_many_spec; eauto using den_bok. }
  assert (DC : exists rest, qs = filter (answered r) qs ++ rest /\ (forall q, In q rest -> answered r q = false)).
  { apply Sorted_StronglySorted in S; [|intros a b d; lia]. clear V. induction qs as [|q qs IH]. { exists []. split; auto. intros q []. }
    inversion S as [|? ? S' F]; subst. rewrite Forall_forall in F. destruct (IH S') as (rest&E&N). cbn [filter]. destruct (answered r q) eqn:A.
    - exists rest. split; auto. cbn [app]. now f_equal.
    - exists (q :: qs). assert (A' : forall q', In q' qs -> answered r q' = false).
      { intros q' Hq'. destruct (answered r q') eqn:A'; auto. apply existsb_exists in A' as (k&Hk&L).
        specialize (F q' Hq'). assert (answered r q = true); [|congruence]. apply existsb_exists. exists k. split; auto.
        pose proof (Z.div_le_mono q q' 65536). lia. }
      split; [|intros q' [<-|Hq']; auto]. replace (filter (answered r) qs) with (@nil Z); auto. clear -A'. induction qs as [|b qs IH]; auto. cbn [filter].
      rewrite (A' b) by now left. apply IH. intros; apply A'; now right. }
  destruct DC as (rest&E&N). exists rest. split; auto. split.
  - intros q Hq. apply filter_In in Hq as [_ Hq]. now apply (answered_iff r P).
  - intros q Hq m Hm Pm. specialize (N q Hq). destruct (Z_lt_dec (m / 65536) (q / 65536)); auto.
    assert (answered r q = true); [|congruence]. apply (answered_iff r P); auto. exists m. split; auto. split; auto. lia.
Qed.

(** ** Lazy programs *)
Inductive lprog : Type :=
| LBase (r : bitmap)
| LOr (conv : bool) (p q : lprog) | LOrI (cap : Z -> Z) (conv : bool) (p q : lprog)
| LXor (p q : lprog) | LXorI (sh : Z -> bool) (p : lprog) (r : bitmap).
Fixpoint leval (p : lprog) : bitmap :=
  match p with
  | LBase r => r
  | LOr conv p q => roaring_bitmap_lazy_or (leval p) (leval q) conv
  | LOrI cap conv p q => roaring_bitmap_lazy_or_inplace cap (leval p) (leval q) conv
  | LXor p q => roaring_bitmap_lazy_xor (leval p) (leval q)
  | LXorI sh p r => roaring_bitmap_lazy_xor_inplace sh (leval p) r
  end.
(** the set a lazy program stands for, using the membership answers of its inputs *)
Fixpoint lsem (p : lprog) : zset :=
  match p with
  | LBase r => roaring_bitmap_contains r
  | LOr _ p q | LOrI _ _ p q => zunion (lsem p) (lsem q)
  | LXor p q => zsymm (lsem p) (lsem q)
  | LXorI _ p r => zsymm (lsem p) (roaring_bitmap_contains r)
  end.
Fixpoint linputs (p : lprog) : list bitmap :=
  match p with
  | LBase r => [r]
  | LOr _ p q | LOrI _ _ p q | LXor p q => linputs p ++ linputs q
  | LXorI _ p r => linputs p ++ [r]
  end.
Lemma bmrep_mem (C : container -> Prop) r P v : bmrep C 0 r P -> val32 v -> mem r v = P (v / 65536) (v mod 65536).
Proof. intros (_&H) Hv. unfold mem. red in Hv. apply H; dm. Qed.
Lemma leval_ok p : Forall valid (linputs p) -> gok lne 0 (leval p) /\ forall v, val32 v -> mem (leval p) v = lsem p v.
Proof.
  induction p as [r|conv p IHp q IHq|cap conv p IHp q IHq|p IHp q IHq|sh p IHp r]; cbn [linputs leval lsem]; intros F.
  - apply Forall_inv in F. apply valid_bok in F. split; [now apply gok_cok_lne|]. intros v Hv. symmetry. now apply roaring_bitmap_contains_spec.
  - apply Forall_app in F as [F1 F2]. destruct (IHp F1) as [G1 M1]. destruct (IHq F2) as [G2 M2].
    pose proof (roaring_bitmap_lazy_or_spec _ _ conv G1 G2) as R. split; [apply R|]. intros v Hv. rewrite (bmrep_mem lne _ _ v R Hv).
    unfold zunion. rewrite <- M1, <- M2 by auto. reflexivity.
  - apply Forall_app in F as [F1 F2]. destruct (IHp F1) as [G1 M1]. destruct (IHq F2) as [G2 M2].
    pose proof (roaring_bitmap_lazy_or_inplace_spec cap _ _ conv G1 G2) as R. split; [apply R|]. intros v Hv. rewrite (bmrep_mem lne _ _ v R Hv).
    unfold zunion. rewrite <- M1, <- M2 by auto. reflexivity.
  - apply Forall_app in F as [F1 F2]. destruct (IHp F1) as [G1 M1]. destruct (IHq F2) as [G2 M2].
    pose proof (roaring_bitmap_lazy_xor_spec _ _ G1 G2) as R. split; [apply R|]. intros v Hv. rewrite (bmrep_mem lne _ _ v R Hv).
    unfold zsymm. rewrite <- M1, <- M2 by auto. reflexivity.
  - apply Forall_app in F as [F1 F2]. destruct (IHp F1) as [G1 M1]. apply Forall_inv in F2. apply valid_bok in F2.
    pose proof (roaring_bitmap_lazy_xor_inplace_spec sh _ _ G1 F2) as R. split; [apply R|]. intros v Hv. rewrite (bmrep_mem lne _ _ v R Hv).
    unfold zsymm. rewrite <- M1 by auto. rewrite roaring_bitmap_contains_spec by auto. reflexivity.
Qed.
Lemma lazy_repair p : Forall valid (linputs p) -> denotes (roaring_bitmap_repair_after_lazy (leval p)) (lsem p).
Proof.
  intros F. destruct (leval_ok p F) as [G M]. eapply den_of_rspec; [apply roaring_bitmap_repair_spec; auto|]. intros v Hv. rewrite <- M by auto. reflexivity.
Qed.

(** ** Laws *)
Local Notation full_flip r := (roaring_bitmap_flip r 0 (2^32)).
Lemma den_full_flip r P : denotes r P -> denotes (full_flip r) (fun v => negb (P v)).
Proof.
  intros D. eapply den_ext; [apply den_flip; eauto; lia|]. intros v Hv. unfold zsymm, zival. red in Hv.
  replace ((0 <=? v) && (v <? 2^32)) with true by lia. now destruct (P v).
Qed.
Lemma eq_by r1 r2 P Q : denotes r1 P -> denotes r2 Q -> same_set P Q -> roaring_bitmap_equals r1 r2 = true.
Proof. intros D E S. now apply (q_equals r1 r2 P Q). Qed.
Ltac den := lazymatch goal with
  | |- denotes (roaring_bitmap_and _ _) _ => apply den_and; den
  | |- denotes (roaring_bitmap_or _ _) _ => apply den_or; den
  | |- denotes (roaring_bitmap_xor _ _) _ => apply den_xor; den
  | |- denotes (roaring_bitmap_andnot _ _) _ => apply den_andnot; den
  | |- denotes (full_flip _) _ => apply den_full_flip; den
  | |- denotes _ _ => apply den_self; assumption
  end.
Ltac law := eapply eq_by; [den|den|];
  let v := fresh "v" in intros v _; unfold zinter, zunion, zsymm, zdiff, zempty;
  repeat match goal with |- context [roaring_bitmap_contains ?r v] => destruct (roaring_bitmap_contains r v) end; reflexivity.
Lemma law_and_comm a b : valid a -> valid b -> roaring_bitmap_equals (roaring_bitmap_and a b) (roaring_bitmap_and b a) = true.
Proof. intros. law. Qed.
Lemma law_or_comm a b : valid a -> valid b -> roaring_bitmap_equals (roaring_bitmap_or a b) (roaring_bitmap_or b a) = true.
Proof. intros. law. Qed.
Lemma law_xor_comm a b : valid a -> valid b -> roaring_bitmap_equals (roaring_bitmap_xor a b) (roaring_bitmap_xor b a) = true.
Proof. intros. law. Qed.
Lemma law_and_assoc a b c : valid a -> valid b -> valid c ->
  roaring_bitmap_equals (roaring_bitmap_and (roaring_bitmap_and a b) c) (roaring_bitmap_and a (roaring_bitmap_and b c)) = true.
Proof. intros. law. Qed.
Lemma law_or_assoc a b c : valid a -> valid b -> valid c ->
  roaring_bitmap_equals (roaring_bitmap_or (roaring_bitmap_or a b) c) (roaring_bitmap_or a (roaring_bitmap_or b c)) = true.
Proof. intros. law. Qed.
Lemma law_xor_assoc a b c : valid a -> valid b -> valid c ->
  roaring_bitmap_equals (roaring_bitmap_xor (roaring_bitmap_xor a b) c) (roaring_bitmap_xor a (roaring_bitmap_xor b c)) = true.
Proof. intros. law. Qed.
Lemma law_and_or a b c : valid a -> valid b -> valid c ->
  roaring_bitmap_equals (roaring_bitmap_and a (roaring_bitmap_or b c)) (roaring_bitmap_or (roaring_bitmap_and a b) (roaring_bitmap_and a c)) = true.
Proof. intros. law. Qed.
Lemma law_or_and a b c : valid a -> valid b -> valid c ->
  roaring_bitmap_equals (roaring_bitmap_or a (roaring_bitmap_and b c)) (roaring_bitmap_and (roaring_bitmap_or a b) (roaring_bitmap_or a c)) = true.
Proof. intros. law. Qed.
Lemma law_de_morgan_or a b : valid a -> valid b ->
  roaring_bitmap_equals (full_flip (roaring_bitmap_or a b)) (roaring_bitmap_and (full_flip a) (full_flip b)) = true.
Proof. intros. law. Qed.
Lemma law_de_morgan_and a b : valid a -> valid b ->
  roaring_bitmap_equals (full_flip (roaring_bitmap_and a b)) (roaring_bitmap_or (full_flip a) (full_flip b)) = true.
Proof. intros. law. Qed.
Lemma law_xor_def a b : valid a -> valid b ->
  roaring_bitmap_equals (roaring_bitmap_xor a b) (roaring_bitmap_andnot (roaring_bitmap_or a b) (roaring_bitmap_and a b)) = true.
Proof. intros. law. Qed.
Lemma law_andnot_def a b : valid a -> valid b ->
  roaring_bitmap_equals (roaring_bitmap_andnot a b) (roaring_bitmap_and a (full_flip b)) = true.
Proof. intros. law. Qed.
Lemma law_absorb a b : valid a -> valid b -> roaring_bitmap_equals (roaring_bitmap_or a (roaring_bitmap_and a b)) a = true.
Proof. intros. law. Qed.
Lemma law_subset a b : valid a -> valid b ->
  (roaring_bitmap_is_subset a b = true <-> roaring_bitmap_equals (roaring_bitmap_and a b) a = true).
Proof.
  intros Va Vb. rewrite (q_subset a b _ _ (den_self a Va) (den_self b Vb)).
  rewrite (q_equals _ _ _ _ (den_and a b _ _ (den_self a Va) (den_self b Vb)) (den_self a Va)). unfold zsubset, same_set, zinter. split; intros H v Hv.
  - specialize (H v Hv). destruct (roaring_bitmap_contains a v); auto.
  - specialize (H v Hv). intros E. now rewrite E in H.
Qed.
(** inclusion-exclusion through the API *)
Lemma law_incl_excl a b : valid a -> valid b ->
  roaring_bitmap_get_cardinality (roaring_bitmap_or a b) + roaring_bitmap_get_cardinality (roaring_bitmap_and a b)
  = roaring_bitmap_get_cardinality a + roaring_bitmap_get_cardinality b.
Proof.
  intros Va Vb. pose proof (den_self a Va) as Da. pose proof (den_self b Vb) as Db.
  pose proof (q_card _ _ (den_or a b _ _ Da Db)) as C1. pose proof (q_card _ _ (den_and a b _ _ Da Db)) as C2.
  pose proof (q_card _ _ Da) as C3. pose proof (q_card _ _ Db) as C4. apply has_card_iff in C1, C2, C3, C4. rewrite C1, C2, C3, C4.
  apply cnt_incl_excl.
Qed.
(** ** flip *)
Lemma flip_involution r P a b : denotes r P -> 0 <= a -> 0 <= b <= 2^32 ->
  roaring_bitmap_equals (roaring_bitmap_flip (roaring_bitmap_flip r a b) a b) r = true.
Proof.
  intros D Ha Hb. eapply eq_by; [apply den_flip; [apply den_flip; eauto|..]; auto|eauto|]. intros v _. unfold zsymm. now destruct (P v), (zival a b v).
Qed.
Lemma flip_inplace_agrees cap r P a b : denotes r P -> 0 <= a -> 0 <= b <= 2^32 ->
  roaring_bitmap_equals (roaring_bitmap_flip_inplace cap r a b) (roaring_bitmap_flip r a b) = true.
Proof. intros D Ha Hb. eapply eq_by; [apply den_flip_inplace; eauto|apply den_flip; eauto|]. intros v _. reflexivity. Qed.
(** ** bulk calls *)
Lemma den_add_bulk_list r P vals : denotes r P -> (forall v, In v vals -> val32 v) -> denotes (fst (add_bulk_list r None vals)) (zunion P (zlist vals)).
Proof.
  intros D V. pose proof (den_bok _ _ D) as B. rewrite add_bulk_list_spec by (auto; exact I). destruct (fold_add_spec vals r B V) as [B' M]. apply den_iff. split; auto.
  intros v Hv. rewrite M, (den_mem r P) by auto. reflexivity.
Qed.
Lemma q_contains_bulk r P vals : denotes r P -> (forall v, In v vals -> val32 v) -> contains_bulk_list r None vals = map P vals.
Proof.
  intros D V. rewrite contains_bulk_list_spec by (eauto using den_bok; exact I). apply map_ext_in. intros v Hv. apply (den_mem r P); auto.
Qed.
Lemma add_many_order r vals vals' : valid r -> (forall v, In v vals -> val32 v) -> (forall v, In v vals <-> In v vals') ->
  roaring_bitmap_equals (roaring_bitmap_add_many r vals) (fold_left roaring_bitmap_add vals' r) = true.
Proof.
  intros Vr V E. pose proof (den_self r Vr) as D. assert (V' : forall v, In v vals' -> val32 v) by (intros v Hv; apply V, E, Hv).
  destruct (fold_add_spec vals' r (den_bok _ _ D) V') as [B' M].
  eapply eq_by; [apply den_add_many; eauto|apply (den_of_bspec _ (fun w => mem r w || zmem w vals')); [split; [exact B'|exact M]|]|].
  - intros v Hv. cbn beta. rewrite (den_mem r _ v D Hv). reflexivity.
  - intros v Hv. unfold zunion. f_equal. change (zmem v vals = zmem v vals'). destruct (zmem v vals) eqn:A.
    + apply zmem_In in A. symmetry. apply zmem_In. now apply E.
    + destruct (zmem v vals') eqn:A'; auto. apply zmem_In in A'. apply E in A'. apply zmem_In in A'. congruence.
Qed.
(** ** extraction *)
Lemma range_array_slice r P l offset limit : denotes r P -> lists P l -> 0 <= offset -> 0 < limit -> offset + limit <= Z.of_nat (length l) ->
  roaring_bitmap_range_uint32_array r offset limit = Some (slice offset limit l).
Proof.
  intros D L Ho Hl Hs. pose proof (den_bok _ _ D) as B. rewrite (lists_unique P l (elems r) L (elems_lists r P D)) in *.
  rewrite range_uint32_array_slice; auto.
  - rewrite (roaring_bitmap_to_uint32_array_spec r 0) by auto. reflexivity.
  - rewrite <- elems_zlen by auto. exact Hs.
Qed.
Lemma range_array_gen r P l offset limit : denotes r P -> lists P l -> 0 <= offset -> 0 < limit ->
  roaring_bitmap_range_uint32_array r offset limit =
  if offset <? Z.of_nat (length l) then Some (slice 0 limit (slice offset (Z.of_nat (length l)) l ++ repeat 0 (Z.to_nat limit))) else None.
Proof.
  intros D L Ho Hl. pose proof (den_bok _ _ D) as B. rewrite (lists_unique P l (elems r) L (elems_lists r P D)) in *.
  rewrite roaring_bitmap_range_uint32_array_spec by auto. rewrite <- elems_zlen by auto. unfold zlen. destruct (offset <? Z.of_nat (length (elems r))); auto.
  f_equal. unfold slice, zfirst, zdrop. cbn [Z.to_nat skipn]. rewrite Nat2Z.id. f_equal. f_equal.
  symmetry. apply firstn_all2. rewrite skipn_length. lia.
Qed.
Lemma call_until_iter {S} (f : S -> Z -> S * bool) l s : iter_seq f l s = call_until f l s.
Proof. revert s. induction l as [|v l IH]; intros s; cbn; auto. Qed.
Lemma iterate_members {S} (f : S -> Z -> S * bool) r P l s : denotes r P -> lists P l -> roaring_iterate f r s = call_until f l s.
Proof.
  intros D L. rewrite (lists_unique P l (elems r) L (elems_lists r P D)). rewrite (roaring_iterate_spec f r 0) by (eapply den_bok; eauto). apply call_until_iter.
Qed.
Lemma iterate64_members {S} (f : S -> Z -> S * bool) r P l h s : denotes r P -> lists P l -> roaring_iterate64 f r h s = call_until f (map (Z.lor h) l) s.
Proof.
  intros D L. rewrite (lists_unique P l (elems r) L (elems_lists r P D)). rewrite roaring_iterate64_spec by (eapply den_bok; eauto). apply call_until_iter.
Qed.
(** ** kernels *)
Lemma inter_sorted A B : incr A -> sorted_with (inter A B) (fun x => In x A /\ In x B).
Proof. intros H. split; [now apply incr_SS, incr_inter|]. intros x. apply inter_In. Qed.
Lemma k_intersect A B : StronglySorted Z.lt A -> StronglySorted Z.lt B ->
  sorted_with (intersect_uint16 A B) (fun x => In x A /\ In x B) /\
  intersect_uint16_cardinality A B = Z.of_nat (length (intersect_uint16 A B)) /\
  (intersect_uint16_nonempty A B = true <-> exists x, In x A /\ In x B).
Proof.
  intros HA HB. apply incr_SS in HA, HB. rewrite intersect_uint16_cardinality_eq, intersect_uint16_nonempty_eq, intersect_uint16_spec by auto.
  split; [now apply inter_sorted|]. split; auto. split.
  - intros H. destruct (inter A B) as [|x l] eqn:E; [discriminate|]. exists x. apply inter_In. rewrite E. now left.
  - intros (x&Hx). apply inter_In in Hx. destruct (inter A B) as [|y l]; [destruct Hx|]. rewrite zlen_cons. pose proof (zlen_nonneg l). lia.
Qed.
Lemma k_intersect_skewed A B : StronglySorted Z.lt A -> StronglySorted Z.lt B -> B <> [] ->
  intersect_skewed_uint16 A B = intersect_uint16 A B /\
  intersect_skewed_uint16_cardinality A B = intersect_uint16_cardinality A B /\
  intersect_skewed_uint16_nonempty A B = intersect_uint16_nonempty A B.
Proof.
  intros HA HB NE. apply incr_SS in HA, HB. rewrite intersect_uint16_cardinality_eq, intersect_uint16_nonempty_eq, intersect_uint16_spec by auto.
  rewrite intersect_skewed_uint16_spec, intersect_skewed_uint16_cardinality_spec, intersect_skewed_uint16_nonempty_spec by auto. auto.
Qed.
Lemma k_union A B : StronglySorted Z.lt A -> StronglySorted Z.lt B ->
  sorted_with (union_uint16 A B) (fun x => In x A \/ In x B) /\ sorted_with (fast_union_uint16 A B) (fun x => In x A \/ In x B).
Proof.
  intros HA HB. apply incr_SS in HA, HB. split; (split; [apply incr_SS|]).
  - now apply union_uint16_incr.
  - intros x. apply union_uint16_In.
  - now apply fast_union_uint16_incr.
  - intros x. apply fast_union_uint16_In.
Qed.
Lemma k_difference A B : StronglySorted Z.lt A -> StronglySorted Z.lt B -> sorted_with (difference_uint16 A B) (fun x => In x A /\ ~ In x B).
Proof.
  intros HA HB. apply incr_SS in HA, HB. split; [apply incr_SS; now apply difference_uint16_incr|]. intros x. now apply difference_uint16_In.
Qed.
Lemma k_xor A B : StronglySorted Z.lt A -> StronglySorted Z.lt B ->
  sorted_with (xor_uint16 A B) (fun x => (In x A /\ ~ In x B) \/ (In x B /\ ~ In x A)).
Proof.
  intros HA HB. apply incr_SS in HA, HB. split; [apply incr_SS; now apply xor_uint16_incr|]. intros x. rewrite xor_uint16_In by auto. tauto.
Qed.
Lemma k_search A x : StronglySorted Z.lt A -> (0 <=? binarySearch A x = true <-> In x A) /\
  count_less A x = Z.of_nat (length (filter (fun y => y <? x) A)) /\ count_greater A x = Z.of_nat (length (filter (fun y => x <? y) A)).
Proof.
  intros HA. apply incr_SS in HA. split; [|split].
  - rewrite binarySearch_mem by auto. apply zmem_In.
  - now apply count_less_spec.
  - rewrite count_greater_spec by auto. unfold zlen, lb. clear HA. induction A as [|a A IH]; auto. cbn [filter].
    unfold zlen in *. destruct (Z.ltb_spec a (x + 1)), (Z.ltb_spec x a); cbn [length] in *; lia.
Qed.
(** ** from_range *)
Lemma from_range_null fuel lo hi step : step = 0 \/ Z.min hi (2^32) <= lo -> roaring_bitmap_from_range fuel lo hi step = Some None.
Proof.
  intros H. unfold roaring_bitmap_from_range. replace (if 2^32 <=? hi then 2^32 else hi) with (Z.min hi (2^32)) by (destruct (Z.leb_spec (2^32) hi); lia).
  destruct (Z.eqb_spec step 0); auto. replace (Z.min hi (2^32) <=? lo) with true by lia. reflexivity.
Qed.
Lemma from_range_diverges lo hi step : 0 <= lo < 2^32 -> 2^32 <= hi -> 65536 <= step -> forall fuel, roaring_bitmap_from_range fuel lo hi step = None.
Proof.
  intros Hl Hh Hs fuel. unfold roaring_bitmap_from_range. replace (2^32 <=? hi) with true by lia. replace (step =? 0) with false by lia.
  replace (2^32 <=? lo) with false by lia. replace (65536 <=? step) with true by lia. now rewrite from_range_big_diverges.
Qed.
(** ** ranges that start beyond 2^32 *)
Lemma range_start_beyond cap r a b : 2^32 < a ->
  roaring_bitmap_add_range r a b = r /\ roaring_bitmap_remove_range r a b = r /\ roaring_bitmap_flip r a b = r /\
  roaring_bitmap_flip_inplace cap r a b = r /\ roaring_bitmap_contains_range r a b = true /\ roaring_bitmap_range_cardinality r a b = 0.
Proof.
  intros H. unfold roaring_bitmap_add_range, roaring_bitmap_remove_range, roaring_bitmap_flip, roaring_bitmap_flip_inplace,
    roaring_bitmap_contains_range, roaring_bitmap_range_cardinality. replace (2^32 <? a) with true by lia. rewrite !orb_true_r. auto 10.
Qed.
(** ** statistics *)
Lemma statistics_members r P : denotes r P ->
  let s := roaring_bitmap_statistics r in
  has_card P (stat_cardinality s) /\ min_value s = roaring_bitmap_minimum r /\ max_value s = roaring_bitmap_maximum r /\
  n_containers s = n_array_containers s + n_run_containers s + n_bitset_containers s /\
  (stat_cardinality s < 2^32 -> n_values_array_containers s + n_values_run_containers s + n_values_bitset_containers s = stat_cardinality s).
Proof.
  intros D. pose proof (den_bok _ _ D) as B. destruct (roaring_bitmap_statistics_spec r B) as (A1&A2&A3&A4&A5). cbn zeta. rewrite A1 in *.
  split; [now apply den_bcardinal|]. auto.
Qed.
Lemma statistics_wraps : exists r, denotes r zfull /\
  let s := roaring_bitmap_statistics r in
  n_values_array_containers s + n_values_run_containers s + n_values_bitset_containers s <> stat_cardinality s.
Proof.
  exists all_values_flat. split; [exact all_values_flat_denotes|]. cbn zeta. destruct statistics_values_wrap as [A B]. cbn zeta in A, B. rewrite A, B. lia.
Qed.
Lemma run_optimize_flag r P : denotes r P ->
  (snd (roaring_bitmap_run_optimize r) = true <-> exists p, In p (fst (roaring_bitmap_run_optimize r)) /\ is_run (snd p) = true).
Proof. intros D. apply roaring_bitmap_run_optimize_spec. eapply den_bok; eauto. Qed.
Lemma remove_run_compression_effect r P : denotes r P ->
  Forall (fun p => is_run (snd p) = false) (fst (roaring_bitmap_remove_run_compression r)) /\
  (snd (roaring_bitmap_remove_run_compression r) = true <-> exists p, In p r /\ is_run (snd p) = true).
Proof. intros D. apply roaring_bitmap_remove_run_compression_spec. eapply den_bok; eauto. Qed.
Lemma run_optimize_bytes r P : denotes r P ->
  tot container_size_in_bytes (fst (roaring_bitmap_run_optimize r)) <= tot container_size_in_bytes r.
Proof. intros D. apply run_optimize_container_bytes. eapply den_bok; eauto. Qed.
