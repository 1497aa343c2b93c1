(** Obs: what a bitmap object denotes, observed through the API, and the bridge
    between that view and the invariants used in the proofs. *)
From Coq Require Import ZArith List Bool Lia Sorting.Sorted.
From Verif Require Import Base ArrayUtil BitUtil BitsetC ArrayC RunC RunD Convert Containers RArray RBinary RPoint RRange RQuery RStat RShift Heap Spec.
Import ListNotations.
Local Open Scope Z_scope.
Local Opaque zr.

(** a bitmap object with well-typed fields accepted by roaring_bitmap_internal_validate *)
Definition valid (r : bitmap) : Prop := typed r /\ roaring_bitmap_internal_validate r = true.
(** a valid bitmap whose members, as answered by roaring_bitmap_contains, are those of [P] *)
Definition denotes (r : bitmap) (P : zset) : Prop := valid r /\ forall v, val32 v -> roaring_bitmap_contains r v = P v.

Lemma valid_bok r : valid r <-> bok r.
Proof.
  split.
  - intros [T V]. now apply roaring_bitmap_internal_validate_spec.
  - intros B. pose proof (bok_typed r B). split; auto. now apply roaring_bitmap_internal_validate_spec.
Qed.
Lemma den_iff r P : denotes r P <-> bok r /\ forall v, val32 v -> mem r v = P v.
Proof.
  unfold denotes. rewrite valid_bok. split; intros [B H]; split; auto; intros v Hv; specialize (H v Hv).
  - now rewrite roaring_bitmap_contains_spec in H.
  - now rewrite roaring_bitmap_contains_spec.
Qed.
Lemma den_bok r P : denotes r P -> bok r. Proof. intros H. now apply den_iff in H. Qed.
Lemma den_mem r P v : denotes r P -> val32 v -> mem r v = P v. Proof. intros H. apply den_iff in H. now apply H. Qed.
Lemma den_mem_true r P v : denotes r P -> (mem r v = true <-> val32 v /\ P v = true).
Proof.
  intros H. pose proof (den_bok _ _ H) as B. split.
  - intros M. destruct (Z_lt_dec v 0) as [L|L]; [|destruct (Z_lt_dec v (2^32)) as [L'|L']].
    + rewrite mem_oob in M; [discriminate|auto|lia].
    + assert (Hv : val32 v) by (red; lia). split; auto. now rewrite <- (den_mem r P v).
    + rewrite mem_oob in M; [discriminate|auto|lia].
  - intros [Hv E]. now rewrite (den_mem r P v).
Qed.
Lemma den_of_bspec r P Q : bspec r P -> same_set P Q -> denotes r Q.
Proof. intros [B M] S. apply den_iff. split; auto. intros v Hv. rewrite M. now apply S. Qed.
Lemma den_of_rspec r P Q : rspec r P -> (forall v, val32 v -> P (v / 65536) (v mod 65536) = Q v) -> denotes r Q.
Proof. intros R S. apply den_iff. split; [apply R|]. intros v Hv. rewrite (rspec_mem r P) by auto. now apply S. Qed.
Lemma den_ext r P Q : denotes r P -> same_set P Q -> denotes r Q.
Proof. intros [V H] S. split; auto. intros v Hv. rewrite H by auto. now apply S. Qed.
Lemma den_self r : valid r -> denotes r (roaring_bitmap_contains r). Proof. intros V. split; auto. Qed.

(** ** Enumerations and cardinalities *)
Lemma incr_SS l : incr l <-> StronglySorted Z.lt l.
Proof.
  induction l as [|a l IH]. { split; intros _; [constructor|exact I]. }
  rewrite incr_cons, IH. split.
  - intros [A B]. constructor; auto.
  - intros A. inversion A. auto.
Qed.
Lemma lists_unique P l l' : lists P l -> lists P l' -> l = l'.
Proof. intros [A B] [A' B']. apply incr_ext; [now apply incr_SS|now apply incr_SS|]. intros x. rewrite B, B'. tauto. Qed.
Lemma lists_cnt P l : lists P l -> Z.of_nat (length l) = cnt P 0 (2^32).
Proof.
  intros [A B]. symmetry. apply (cnt_list P 0 (2^32) l).
  - now apply incr_SS.
  - apply inb_intro. intros x Hx. apply B in Hx. apply Hx.
  - intros x Hx. rewrite B. unfold val32. tauto.
Qed.
Lemma lists_filter P : lists P (filter P (zr 0 (2^32))).
Proof.
  split. { apply incr_SS, incr_filter, zr_incr. }
  intros v. rewrite filter_In, zr_In. unfold val32. tauto.
Qed.
Lemma has_card_iff P n : has_card P n <-> n = cnt P 0 (2^32).
Proof.
  split.
  - intros (l&L&->). now apply lists_cnt.
  - intros ->. exists (filter P (zr 0 (2^32))). split; [apply lists_filter|]. symmetry. apply lists_cnt, lists_filter.
Qed.
Lemma has_card_unique P n m : has_card P n -> has_card P m -> n = m.
Proof. rewrite !has_card_iff. intros -> ->. auto. Qed.
Lemma has_card_ext P Q n : same_set P Q -> has_card P n -> has_card Q n.
Proof. intros S. rewrite !has_card_iff. intros ->. rewrite (cnt_ext P Q) by exact S. auto. Qed.
Lemma cnt_window P a b : 0 <= a -> b <= 2^32 -> cnt P a b = cnt (zinter P (zival a b)) 0 (2^32).
Proof.
  intros Ha Hb. destruct (Z_le_dec b a) as [L|L].
  - rewrite cnt_nil by lia. rewrite cnt_none; [lia|]. intros x _. unfold zinter, zival. replace ((a <=? x) && (x <? b)) with false by lia. apply andb_false_r.
  - rewrite (cnt_app _ 0 a (2^32)), (cnt_app _ a b (2^32)) by lia.
    rewrite (cnt_none (zinter P (zival a b)) 0 a), (cnt_none (zinter P (zival a b)) b (2^32)), (cnt_ext (zinter P (zival a b)) P a b).
    + lia.
    + intros x Hx. unfold zinter, zival. replace ((a <=? x) && (x <? b)) with true by lia. apply andb_true_r.
    + intros x Hx. unfold zinter, zival. replace ((a <=? x) && (x <? b)) with false by lia. apply andb_false_r.
    + intros x Hx. unfold zinter, zival. replace ((a <=? x) && (x <? b)) with false by lia. apply andb_false_r.
Qed.
Lemma elems_lists r P : denotes r P -> lists P (elems r).
Proof.
  intros D. pose proof (den_bok _ _ D) as B. destruct (elems_wf cok 0 r B) as [I1 I2]; [lia|]. split; [now apply incr_SS|].
  intros v. rewrite (elems_In cok 0 r v B) by lia. now apply den_mem_true.
Qed.
Lemma den_cnt r P a b : denotes r P -> 0 <= a -> b <= 2^32 -> cnt (mem r) a b = cnt P a b.
Proof. intros D Ha Hb. apply cnt_ext. intros x Hx. apply (den_mem r P); auto. red. lia. Qed.
Lemma den_bcardinal r P : denotes r P -> has_card P (bcardinal r).
Proof. intros D. apply has_card_iff. unfold bcardinal. apply den_cnt; auto; lia. Qed.

(** ** Updates *)
Lemma zmem_zlist v l : zmem v l = zlist l v. Proof. reflexivity. Qed.
Lemma den_new : denotes [] zempty.
Proof. apply den_iff. split; [apply bok_nil|]. reflexivity. Qed.
Lemma den_add r P v : denotes r P -> val32 v -> denotes (roaring_bitmap_add r v) (zadd P v).
Proof.
  intros D Hv. pose proof (den_bok _ _ D) as B. destruct (roaring_bitmap_add_spec r v B Hv) as [B' M]. apply den_iff. split; auto.
  intros w Hw. rewrite M, (den_mem r P w) by auto. unfold zadd. destruct (w =? v); [now rewrite orb_true_r|now rewrite orb_false_r].
Qed.
Lemma den_remove r P v : denotes r P -> val32 v -> denotes (roaring_bitmap_remove r v) (zdel P v).
Proof.
  intros D Hv. pose proof (den_bok _ _ D) as B. destruct (roaring_bitmap_remove_spec r v B Hv) as [B' M]. apply den_iff. split; auto.
  intros w Hw. rewrite M, (den_mem r P w) by auto. unfold zdel. destruct (w =? v); [now rewrite andb_false_r|now rewrite andb_true_r].
Qed.
Lemma den_add_checked r P v : denotes r P -> val32 v ->
  denotes (fst (roaring_bitmap_add_checked r v)) (zadd P v) /\ snd (roaring_bitmap_add_checked r v) = negb (P v).
Proof.
  intros D Hv. rewrite roaring_bitmap_add_checked_spec by (eauto using den_bok). cbn [fst snd]. split; [now apply den_add|]. f_equal. now apply den_mem.
Qed.
Lemma den_remove_checked r P v : denotes r P -> val32 v ->
  denotes (fst (roaring_bitmap_remove_checked r v)) (zdel P v) /\ snd (roaring_bitmap_remove_checked r v) = P v.
Proof.
  intros D Hv. rewrite roaring_bitmap_remove_checked_spec by (eauto using den_bok). cbn [fst snd]. split; [now apply den_remove|]. now apply den_mem.
Qed.
Lemma den_add_many r P vals : denotes r P -> (forall v, In v vals -> val32 v) -> denotes (roaring_bitmap_add_many r vals) (zunion P (zlist vals)).
Proof.
  intros D Hv. pose proof (den_bok _ _ D) as B. destruct (roaring_bitmap_add_many_spec r vals B Hv) as [B' M]. apply den_iff. split; auto.
  intros w Hw. rewrite M, (den_mem r P w) by auto. reflexivity.
Qed.
Lemma den_of vals : (forall v, In v vals -> val32 v) -> denotes (roaring_bitmap_of vals) (zlist vals).
Proof. intros Hv. apply (den_of_bspec _ (fun w => zmem w vals)); [now apply roaring_bitmap_of_spec|]. intros v _. reflexivity. Qed.
Lemma den_of_ptr vals : (forall v, In v vals -> val32 v) -> denotes (roaring_bitmap_of_ptr vals) (zlist vals).
Proof. intros Hv. apply (den_of_bspec _ (fun w => zmem w vals)); [now apply roaring_bitmap_of_ptr_spec|]. intros v _. reflexivity. Qed.
Lemma den_remove_many r P vals : denotes r P -> (forall v, In v vals -> val32 v) -> denotes (roaring_bitmap_remove_many r vals) (zdiff P (zlist vals)).
Proof.
  intros D Hv. pose proof (den_bok _ _ D) as B. destruct (roaring_bitmap_remove_many_spec r vals B Hv) as [B' M]. apply den_iff. split; auto.
  intros w Hw. rewrite M, (den_mem r P w) by auto. reflexivity.
Qed.
Lemma den_from_range fuel lo hi step : 0 <= lo < Z.min hi (2^32) -> 0 < step < 2^32 ->
  (step < 65536 \/ lo + (Z.min hi (2^32) - lo + step - 1) / step * step < 2^32) -> 70000 <= Z.of_nat fuel ->
  exists r, roaring_bitmap_from_range fuel lo hi step = Some (Some r) /\ denotes r (zprog lo (Z.min hi (2^32)) step).
Proof.
  intros H1 H2 H3 F. destruct (roaring_bitmap_from_range_spec fuel lo hi step) as (r&E&B&M); auto; try lia. exists r. split; auto.
  apply den_iff. split; auto.
Qed.
Lemma den_add_range r P a b : denotes r P -> 0 <= a -> 0 <= b <= 2^32 -> denotes (roaring_bitmap_add_range r a b) (zunion P (zival a b)).
Proof. intros D Ha Hb. eapply den_of_bspec; [apply add_range_mem; eauto using den_bok|]. intros v Hv. cbn beta. now rewrite (den_mem r P v). Qed.
Lemma den_remove_range r P a b : denotes r P -> 0 <= a -> 0 <= b <= 2^32 -> denotes (roaring_bitmap_remove_range r a b) (zdiff P (zival a b)).
Proof. intros D Ha Hb. eapply den_of_bspec; [apply remove_range_mem; eauto using den_bok|]. intros v Hv. cbn beta. now rewrite (den_mem r P v). Qed.
Lemma den_flip r P a b : denotes r P -> 0 <= a -> 0 <= b <= 2^32 -> denotes (roaring_bitmap_flip r a b) (zsymm P (zival a b)).
Proof. intros D Ha Hb. eapply den_of_bspec; [apply flip_mem; eauto using den_bok|]. intros v Hv. cbn beta. now rewrite (den_mem r P v). Qed.
Lemma den_flip_inplace cap r P a b : denotes r P -> 0 <= a -> 0 <= b <= 2^32 -> denotes (roaring_bitmap_flip_inplace cap r a b) (zsymm P (zival a b)).
Proof. intros D Ha Hb. eapply den_of_bspec; [apply flip_inplace_mem; eauto using den_bok|]. intros v Hv. cbn beta. now rewrite (den_mem r P v). Qed.
Lemma zival_succ a b v : zival a (b + 1) v = (a <=? v) && (v <=? b).
Proof. unfold zival. f_equal. lia. Qed.
Lemma den_add_range_closed r P a b : denotes r P -> val32 a -> val32 b -> denotes (roaring_bitmap_add_range_closed r a b) (zunion P (zival a (b + 1))).
Proof. intros D Ha Hb. eapply den_of_bspec; [apply add_range_closed_mem; eauto using den_bok|]. intros v Hv. cbn beta. unfold zunion. now rewrite (den_mem r P v), zival_succ. Qed.
Lemma den_remove_range_closed r P a b : denotes r P -> val32 a -> val32 b -> denotes (roaring_bitmap_remove_range_closed r a b) (zdiff P (zival a (b + 1))).
Proof. intros D Ha Hb. eapply den_of_bspec; [apply remove_range_closed_mem; eauto using den_bok|]. intros v Hv. cbn beta. unfold zdiff. now rewrite (den_mem r P v), zival_succ. Qed.
Lemma den_flip_closed r P a b : denotes r P -> val32 a -> val32 b -> denotes (roaring_bitmap_flip_closed r a b) (zsymm P (zival a (b + 1))).
Proof. intros D Ha Hb. eapply den_of_bspec; [apply flip_closed_mem; eauto using den_bok|]. intros v Hv. cbn beta. unfold zsymm. now rewrite (den_mem r P v), zival_succ. Qed.
Lemma den_flip_inplace_closed cap r P a b : denotes r P -> val32 a -> val32 b -> denotes (roaring_bitmap_flip_inplace_closed cap r a b) (zsymm P (zival a (b + 1))).
Proof. intros D Ha Hb. eapply den_of_bspec; [apply flip_inplace_closed_mem; eauto using den_bok|]. intros v Hv. cbn beta. unfold zsymm. now rewrite (den_mem r P v), zival_succ. Qed.
Lemma den_run_optimize r P : denotes r P -> denotes (fst (roaring_bitmap_run_optimize r)) P.
Proof.
  intros D. destruct (roaring_bitmap_run_optimize_spec r (den_bok _ _ D)) as [S _]. eapply den_of_bspec; [exact S|]. intros v Hv. now apply den_mem.
Qed.
Lemma den_remove_run_compression r P : denotes r P -> denotes (fst (roaring_bitmap_remove_run_compression r)) P.
Proof.
  intros D. destruct (roaring_bitmap_remove_run_compression_spec r (den_bok _ _ D)) as [S _]. eapply den_of_bspec; [exact S|]. intros v Hv. now apply den_mem.
Qed.
Lemma den_add_offset cap r P o : denotes r P -> denotes (roaring_bitmap_add_offset cap r o) (zshift (in32 P) o).
Proof.
  intros D. pose proof (den_bok _ _ D) as B. eapply den_of_bspec; [apply roaring_bitmap_add_offset_spec; auto|]. intros v Hv. cbn beta.
  replace ((0 <=? v) && (v <? 2^32)) with true by (red in Hv; lia). cbn [andb]. unfold zshift, in32.
  destruct ((0 <=? v - o) && (v - o <? 2^32)) eqn:E; cbn [andb].
  - apply (den_mem r P); auto. red. lia.
  - apply mem_oob; auto. lia.
Qed.

(** ** Binary operations *)
Lemma den_or x1 x2 P Q : denotes x1 P -> denotes x2 Q -> denotes (roaring_bitmap_or x1 x2) (zunion P Q).
Proof. intros D E. eapply den_of_rspec; [apply roaring_bitmap_or_spec; eauto using den_bok|]. intros v Hv. change (mem x1 v || mem x2 v = zunion P Q v). now rewrite (den_mem x1 P), (den_mem x2 Q). Qed.
Lemma den_xor x1 x2 P Q : denotes x1 P -> denotes x2 Q -> denotes (roaring_bitmap_xor x1 x2) (zsymm P Q).
Proof. intros D E. eapply den_of_rspec; [apply roaring_bitmap_xor_spec; eauto using den_bok|]. intros v Hv. change (xorb (mem x1 v) (mem x2 v) = zsymm P Q v). now rewrite (den_mem x1 P), (den_mem x2 Q). Qed.
Lemma den_and x1 x2 P Q : denotes x1 P -> denotes x2 Q -> denotes (roaring_bitmap_and x1 x2) (zinter P Q).
Proof. intros D E. eapply den_of_rspec; [apply roaring_bitmap_and_spec; eauto using den_bok|]. intros v Hv. change (mem x1 v && mem x2 v = zinter P Q v). now rewrite (den_mem x1 P), (den_mem x2 Q). Qed.
Lemma den_andnot x1 x2 P Q : denotes x1 P -> denotes x2 Q -> denotes (roaring_bitmap_andnot x1 x2) (zdiff P Q).
Proof. intros D E. eapply den_of_rspec; [apply roaring_bitmap_andnot_spec; eauto using den_bok|]. intros v Hv. change (mem x1 v && negb (mem x2 v) = zdiff P Q v). now rewrite (den_mem x1 P), (den_mem x2 Q). Qed.
Lemma den_or_inplace sh cap x1 x2 P Q : denotes x1 P -> denotes x2 Q -> denotes (roaring_bitmap_or_inplace sh cap x1 x2) (zunion P Q).
Proof. intros D E. eapply den_of_rspec; [apply roaring_bitmap_or_inplace_spec; eauto using den_bok|]. intros v Hv. change (mem x1 v || mem x2 v = zunion P Q v). now rewrite (den_mem x1 P), (den_mem x2 Q). Qed.
Lemma den_xor_inplace sh x1 x2 P Q : denotes x1 P -> denotes x2 Q -> denotes (roaring_bitmap_xor_inplace sh x1 x2) (zsymm P Q).
Proof. intros D E. eapply den_of_rspec; [apply roaring_bitmap_xor_inplace_spec; eauto using den_bok|]. intros v Hv. change (xorb (mem x1 v) (mem x2 v) = zsymm P Q v). now rewrite (den_mem x1 P), (den_mem x2 Q). Qed.
Lemma den_and_inplace same sh x1 x2 P Q : denotes x1 P -> denotes x2 Q -> (same = true -> x1 = x2) -> denotes (roaring_bitmap_and_inplace same sh x1 x2) (zinter P Q).
Proof. intros D E S. eapply den_of_rspec; [apply roaring_bitmap_and_inplace_spec; eauto using den_bok|]. intros v Hv. change (mem x1 v && mem x2 v = zinter P Q v). now rewrite (den_mem x1 P), (den_mem x2 Q). Qed.
Lemma den_andnot_inplace sh x1 x2 P Q : denotes x1 P -> denotes x2 Q -> denotes (roaring_bitmap_andnot_inplace sh x1 x2) (zdiff P Q).
Proof. intros D E. eapply den_of_rspec; [apply roaring_bitmap_andnot_inplace_spec; eauto using den_bok|]. intros v Hv. change (mem x1 v && negb (mem x2 v) = zdiff P Q v). now rewrite (den_mem x1 P), (den_mem x2 Q). Qed.

Definition den_all (xs : list bitmap) (Ps : list zset) : Prop := Forall2 denotes xs Ps.
Lemma den_all_bok xs Ps : den_all xs Ps -> Forall bok xs.
Proof. induction 1; constructor; eauto using den_bok. Qed.
Lemma den_or_many cap xs Ps : den_all xs Ps -> denotes (roaring_bitmap_or_many cap xs) (fun v => existsb (fun P : zset => P v) Ps).
Proof.
  intros D. eapply den_of_rspec; [apply roaring_bitmap_or_many_spec; eauto using den_all_bok|]. intros v Hv.
  change (existsb (fun r => mem r v) xs = existsb (fun P : zset => P v) Ps). induction D; cbn [existsb]; auto. rewrite IHD. now rewrite (den_mem x y).
Qed.
Lemma den_or_many_heap cap xs Ps : den_all xs Ps -> denotes (roaring_bitmap_or_many_heap cap xs) (fun v => existsb (fun P : zset => P v) Ps).
Proof.
  intros D. eapply den_of_rspec; [apply roaring_bitmap_or_many_heap_spec; eauto using den_all_bok|]. intros v Hv.
  change (existsb (fun r => mem r v) xs = existsb (fun P : zset => P v) Ps). induction D; cbn [existsb]; auto. rewrite IHD. now rewrite (den_mem x y).
Qed.
Lemma den_xor_many sh xs Ps : den_all xs Ps -> denotes (roaring_bitmap_xor_many sh xs) (fun v => fold_left (fun b (P : zset) => xorb b (P v)) Ps false).
Proof.
  intros D. eapply den_of_rspec; [apply roaring_bitmap_xor_many_spec; eauto using den_all_bok|]. intros v Hv. cbn beta. generalize false.
  induction D; intros b; cbn [fold_left]; auto. rewrite IHD. f_equal. f_equal. now apply (den_mem x y).
Qed.

(** ** Queries *)
Lemma q_contains r P v : denotes r P -> val32 v -> roaring_bitmap_contains r v = P v.
Proof. intros D. apply D. Qed.
Lemma q_card r P : denotes r P -> has_card P (roaring_bitmap_get_cardinality r).
Proof. intros D. rewrite roaring_bitmap_get_cardinality_spec by eauto using den_bok. now apply den_bcardinal. Qed.
Lemma q_range_card r P a b : denotes r P -> 0 <= a -> 0 <= b <= 2^32 -> has_card (zinter P (zival a b)) (roaring_bitmap_range_cardinality r a b).
Proof.
  intros D Ha Hb. apply has_card_iff. rewrite range_cardinality_cnt by eauto using den_bok. rewrite (den_cnt r P) by (auto; lia).
  apply cnt_window; lia.
Qed.
Lemma q_contains_range r P a b : denotes r P -> 0 <= a -> 0 <= b <= 2^32 ->
  (roaring_bitmap_contains_range r a b = true <-> forall v, a <= v < b -> P v = true).
Proof.
  intros D Ha Hb. rewrite contains_range_iff by eauto using den_bok.
  split; intros H v Hv; specialize (H v Hv); [rewrite <- (den_mem r P)|rewrite (den_mem r P)]; auto; red; lia.
Qed.
Lemma q_is_empty r P : denotes r P -> (roaring_bitmap_is_empty r = true <-> same_set P zempty).
Proof.
  intros D. pose proof (den_bok _ _ D) as B. rewrite roaring_bitmap_is_empty_spec by auto. split.
  - intros H v Hv. rewrite <- (den_mem r P) by auto. apply H.
  - intros H v. destruct (mem r v) eqn:E; auto. apply (den_mem_true r P) in E as [Hv E]; auto. rewrite (H v Hv) in E. discriminate.
Qed.
Lemma q_equals r1 r2 P Q : denotes r1 P -> denotes r2 Q -> (roaring_bitmap_equals r1 r2 = true <-> same_set P Q).
Proof.
  intros D E. rewrite roaring_bitmap_equals_spec by eauto using den_bok. split.
  - intros H v Hv. rewrite <- (den_mem r1 P), <- (den_mem r2 Q) by auto. apply H.
  - intros H v. destruct (mem r1 v) eqn:M.
    + apply (den_mem_true r1 P) in M as [Hv M]; auto. symmetry. apply (den_mem_true r2 Q); auto. split; auto. now rewrite <- H.
    + destruct (mem r2 v) eqn:N; auto. apply (den_mem_true r2 Q) in N as [Hv N]; auto. rewrite <- H in N by auto. rewrite (den_mem r1 P) in M by auto. congruence.
Qed.
Lemma q_subset r1 r2 P Q : denotes r1 P -> denotes r2 Q -> (roaring_bitmap_is_subset r1 r2 = true <-> zsubset P Q).
Proof.
  intros D E. rewrite roaring_bitmap_is_subset_spec by eauto using den_bok. split.
  - intros H v Hv M. assert (X : mem r2 v = true) by (apply H; now rewrite (den_mem r1 P)). now rewrite (den_mem r2 Q) in X.
  - intros H v M. apply (den_mem_true r1 P) in M as [Hv M]; auto. apply (den_mem_true r2 Q); auto.
Qed.
Lemma q_strict_subset r1 r2 P Q : denotes r1 P -> denotes r2 Q -> (roaring_bitmap_is_strict_subset r1 r2 = true <-> zsubset P Q /\ ~ zsubset Q P).
Proof.
  intros D E. pose proof (q_subset r1 r2 P Q D E) as S. rewrite roaring_bitmap_is_subset_spec in S by eauto using den_bok.
  rewrite roaring_bitmap_is_strict_subset_spec by eauto using den_bok. rewrite S. split.
  - intros [A (v&Hv&N)]. split; auto. intros C. apply (den_mem_true r2 Q) in Hv as [V Hv]; auto. apply C in Hv; auto.
    rewrite (den_mem r1 P) in N by auto. congruence.
  - intros [A N]. split; auto. destruct (roaring_bitmap_is_subset r2 r1) eqn:T. { elim N. now apply (q_subset r2 r1). }
    assert (T' : ~ roaring_bitmap_is_subset r2 r1 = true) by congruence.
    (* cardinalities: a proper superset has more members *)
    destruct (Z.eq_dec (cnt (fun v => mem r2 v && negb (mem r1 v)) 0 (2^32)) 0) as [Z0|Z0].
    + elim N. intros v Hv M. pose proof (cnt_none_inv (fun v => mem r2 v && negb (mem r1 v)) _ _ Z0 v Hv) as X. cbn beta in X.
      rewrite (den_mem r2 Q), (den_mem r1 P), M in X by auto. now destruct (P v).
    + apply cnt_pos_ex in Z0 as (v&Hv&M). exists v. apply andb_true_iff in M as [M1 M2]. split; auto. now destruct (mem r1 v).
Qed.
Lemma q_intersect r1 r2 P Q : denotes r1 P -> denotes r2 Q -> (roaring_bitmap_intersect r1 r2 = true <-> exists v, val32 v /\ P v = true /\ Q v = true).
Proof.
  intros D E. rewrite roaring_bitmap_intersect_spec by eauto using den_bok. split; intros (v&H).
  - destruct H as [H1 H2]. apply (den_mem_true r1 P) in H1 as [V H1]; auto. apply (den_mem_true r2 Q) in H2 as [_ H2]; auto. eauto.
  - destruct H as (V&H1&H2). exists v. rewrite (den_mem r1 P), (den_mem r2 Q); auto.
Qed.
Lemma q_and_card r1 r2 P Q : denotes r1 P -> denotes r2 Q -> has_card (zinter P Q) (roaring_bitmap_and_cardinality r1 r2).
Proof.
  intros D E. apply has_card_iff. rewrite roaring_bitmap_and_cardinality_spec by eauto using den_bok. apply cnt_ext.
  intros v Hv. unfold zinter. now rewrite (den_mem r1 P), (den_mem r2 Q).
Qed.
Lemma q_or_card r1 r2 P Q : denotes r1 P -> denotes r2 Q -> has_card (zunion P Q) (roaring_bitmap_or_cardinality r1 r2).
Proof.
  intros D E. apply has_card_iff. rewrite roaring_bitmap_or_cardinality_spec by eauto using den_bok. apply cnt_ext.
  intros v Hv. unfold zunion. now rewrite (den_mem r1 P), (den_mem r2 Q).
Qed.
Lemma q_xor_card r1 r2 P Q : denotes r1 P -> denotes r2 Q -> has_card (zsymm P Q) (roaring_bitmap_xor_cardinality r1 r2).
Proof.
  intros D E. apply has_card_iff. rewrite roaring_bitmap_xor_cardinality_spec by eauto using den_bok. apply cnt_ext.
  intros v Hv. unfold zsymm. now rewrite (den_mem r1 P), (den_mem r2 Q).
Qed.
Lemma q_andnot_card r1 r2 P Q : denotes r1 P -> denotes r2 Q -> has_card (zdiff P Q) (roaring_bitmap_andnot_cardinality r1 r2).
Proof.
  intros D E. apply has_card_iff. rewrite roaring_bitmap_andnot_cardinality_spec by eauto using den_bok. apply cnt_ext.
  intros v Hv. unfold zdiff. now rewrite (den_mem r1 P), (den_mem r2 Q).
Qed.
Lemma q_jaccard r1 r2 P Q : denotes r1 P -> denotes r2 Q ->
  has_card (zinter P Q) (fst (roaring_bitmap_jaccard_index r1 r2)) /\ has_card (zunion P Q) (snd (roaring_bitmap_jaccard_index r1 r2)).
Proof.
  intros D E. pose proof (q_and_card _ _ _ _ D E) as A. pose proof (q_or_card _ _ _ _ D E) as O.
  rewrite roaring_bitmap_jaccard_spec by eauto using den_bok. rewrite roaring_bitmap_and_cardinality_spec in A by eauto using den_bok.
  rewrite roaring_bitmap_or_cardinality_spec in O by eauto using den_bok. cbn [fst snd]. split; [exact A|exact O].
Qed.
Lemma q_rank r P x : denotes r P -> val32 x -> has_card (zinter P (zival 0 (x + 1))) (roaring_bitmap_rank r x).
Proof.
  intros D Hx. apply has_card_iff. rewrite roaring_bitmap_rank_spec by eauto using den_bok. red in Hx. rewrite (den_cnt r P) by (auto; lia). apply cnt_window; lia.
Qed.
Lemma q_get_index r P x : denotes r P -> val32 x ->
  if P x then has_card (zinter P (zival 0 x)) (roaring_bitmap_get_index r x) else roaring_bitmap_get_index r x = -1.
Proof.
  intros D Hx. pose proof (den_bok _ _ D) as B. rewrite roaring_bitmap_get_index_spec by auto. rewrite (den_mem r P) by auto. destruct (P x) eqn:E; auto.
  apply has_card_iff. rewrite roaring_bitmap_rank_spec by auto. red in Hx. rewrite (den_cnt r P) by (auto; lia).
  rewrite cnt_snoc by lia. rewrite E. rewrite <- cnt_window by lia. lia.
Qed.
Lemma den_select_ok r P : denotes r P -> (exists v, val32 v /\ P v = false) -> select_ok r 0.
Proof.
  intros D (v&Hv&E). left. rewrite elems_zlen by eauto using den_bok. unfold bcardinal.
  pose proof (cnt_bound (mem r) 0 (2^32) ltac:(lia)). destruct (Z.eq_dec (cnt (mem r) 0 (2^32)) (2^32)) as [F|F]; [|lia].
  pose proof (cnt_full_inv (mem r) 0 (2^32) ltac:(lia) ltac:(lia) v Hv) as X. rewrite (den_mem r P) in X by auto. congruence.
Qed.
Lemma cnt_elems_below r P v : denotes r P -> val32 v -> cnt (zinter P (zival 0 v)) 0 (2^32) = lb (elems r) v.
Proof.
  intros D Hv. red in Hv. rewrite elems_lb by (eauto using den_bok; lia). rewrite <- cnt_window by lia. symmetry. apply den_cnt; auto; lia.
Qed.
Lemma lb_znth l i : incr l -> 0 <= i < zlen l -> lb l (znth l i) = i.
Proof.
  intros I H. apply lb_unique; auto; try lia.
  - intros j Hj. apply incr_znth; auto; lia.
  - intros j Hj. apply incr_znth_le; auto; lia.
Qed.
Lemma q_select r P k : denotes r P -> val32 k -> select_ok r 0 ->
  match roaring_bitmap_select r k with
  | Some v => val32 v /\ P v = true /\ has_card (zinter P (zival 0 v)) k
  | None => forall n, has_card P n -> n <= k
  end.
Proof.
  intros D Hk S. pose proof (den_bok _ _ D) as B. rewrite roaring_bitmap_select_spec by auto. red in Hk.
  destruct (elems_wf cok 0 r B) as [I1 I2]; [lia|]. destruct (Z.ltb_spec k (bcardinal r)) as [L|L].
  - pose proof (elems_zlen r B) as EL. pose proof (znth_In (elems r) k ltac:(lia)) as HI.
    apply (elems_lists r P D) in HI as [V M]. split; auto. split; auto. apply has_card_iff. rewrite (cnt_elems_below r P) by auto.
    symmetry. apply lb_znth; auto; lia.
  - intros n Hn. pose proof (den_bcardinal r P D) as C. rewrite (has_card_unique P n (bcardinal r)) by auto. lia.
Qed.
Lemma q_minimum r P : denotes r P ->
  (val32 (roaring_bitmap_minimum r) /\ P (roaring_bitmap_minimum r) = true /\ forall v, val32 v -> P v = true -> roaring_bitmap_minimum r <= v)
  \/ (same_set P zempty /\ roaring_bitmap_minimum r = 2^32 - 1).
Proof.
  intros D. pose proof (den_bok _ _ D) as B. pose proof (roaring_bitmap_minimum_spec r B) as M. pose proof (q_is_empty r P D) as E. unfold roaring_bitmap_is_empty in E.
  destruct (zlen r =? 0).
  - right. split; auto. now apply E.
  - left. destruct M as [M1 M2]. apply (den_mem_true r P) in M1 as [V M1]; auto. split; auto. split; auto. intros v Hv Pv. apply M2. now rewrite (den_mem r P).
Qed.
Lemma q_maximum r P : denotes r P ->
  (val32 (roaring_bitmap_maximum r) /\ P (roaring_bitmap_maximum r) = true /\ forall v, val32 v -> P v = true -> v <= roaring_bitmap_maximum r)
  \/ (same_set P zempty /\ roaring_bitmap_maximum r = 0).
Proof.
  intros D. pose proof (den_bok _ _ D) as B. pose proof (roaring_bitmap_maximum_spec r B) as M. pose proof (q_is_empty r P D) as E. unfold roaring_bitmap_is_empty in E.
  destruct (zlen r =? 0).
  - right. split; auto. now apply E.
  - left. destruct M as [M1 M2]. apply (den_mem_true r P) in M1 as [V M1]; auto. split; auto. split; auto. intros v Hv Pv. apply M2. now rewrite (den_mem r P).
Qed.
Lemma q_to_array r P : denotes r P -> lists P (roaring_bitmap_to_uint32_array r).
Proof. intros D. rewrite (roaring_bitmap_to_uint32_array_spec r 0) by (eapply den_bok; eauto). now apply elems_lists. Qed.
