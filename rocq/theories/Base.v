(** Base: lists of integers, strictly increasing lists, integer ranges. *)
From Coq Require Export ZArith List Bool Lia Permutation Arith.
From Coq Require Export ZifyBool ZifyNat.
Export ListNotations.
Global Open Scope Z_scope.
Global Open Scope bool_scope.

Ltac dm := Z.div_mod_to_equations; lia.

(** ** Lengths and indexing with Z *)
Definition zlen {A} (l : list A) : Z := Z.of_nat (length l).
Arguments zlen : simpl never.
(** C array read [a[i]] on a list of integers; outside the list the value is 0
    (memory-safety of the readers is stated separately). *)
Definition znth (l : list Z) (i : Z) : Z := nth (Z.to_nat i) l 0.
Arguments znth : simpl never.
(** list update *)
Fixpoint upd {A} (n : nat) (v : A) (l : list A) : list A :=
  match l, n with
  | [], _ => []
  | _ :: t, O => v :: t
  | h :: t, S m => h :: upd m v t
  end.
Definition zupd (i v : Z) (l : list Z) := upd (Z.to_nat i) v l.

Lemma zlen_nil {A} : zlen (@nil A) = 0. Proof. reflexivity. Qed.
Lemma zlen_cons {A} (x:A) l : zlen (x::l) = zlen l + 1.
Proof. unfold zlen. cbn [length]. lia. Qed.
Lemma zlen_app {A} (l1 l2:list A) : zlen (l1++l2) = zlen l1 + zlen l2.
Proof. unfold zlen. rewrite app_length. lia. Qed.
Lemma zlen_nonneg {A} (l:list A) : 0 <= zlen l.
Proof. unfold zlen; lia. Qed.
Lemma zlen_map {A B} (f:A->B) l : zlen (map f l) = zlen l.
Proof. unfold zlen. now rewrite map_length. Qed.
Lemma zlen_rev {A} (l:list A) : zlen (rev l) = zlen l.
Proof. unfold zlen. now rewrite rev_length. Qed.
Lemma zlen_0_nil {A} (l:list A) : zlen l = 0 -> l = [].
Proof. destruct l; auto. rewrite zlen_cons. pose proof (zlen_nonneg l). lia. Qed.

Lemma znth_cons_0 x l : znth (x::l) 0 = x. Proof. reflexivity. Qed.
Lemma znth_cons_pos x l i : 0 < i -> znth (x::l) i = znth l (i-1).
Proof.
  intros. unfold znth. replace (Z.to_nat i) with (S (Z.to_nat (i-1))) by lia. reflexivity.
Qed.
Lemma znth_app_l l1 l2 i : i < zlen l1 -> znth (l1++l2) i = znth l1 i \/ i < 0.
Proof.
  intros. unfold znth, zlen in *. destruct (Z_lt_dec i 0); auto. left. apply app_nth1. lia.
Qed.
Lemma znth_app1 l1 l2 i : 0 <= i < zlen l1 -> znth (l1++l2) i = znth l1 i.
Proof. intros. unfold znth, zlen in *. apply app_nth1. lia. Qed.
Lemma znth_app2 l1 l2 i : zlen l1 <= i -> znth (l1++l2) i = znth l2 (i - zlen l1).
Proof.
  intros. unfold znth, zlen in *. rewrite app_nth2 by lia. f_equal. lia.
Qed.
Lemma znth_In l i : 0 <= i < zlen l -> In (znth l i) l.
Proof. intros. unfold znth, zlen in *. apply nth_In. lia. Qed.
Lemma In_znth l x : In x l -> exists i, 0 <= i < zlen l /\ znth l i = x.
Proof.
  intros H. apply (In_nth _ _ 0) in H. destruct H as (n & Hn & E).
  exists (Z.of_nat n). unfold znth, zlen. rewrite Nat2Z.id. split; auto; lia.
Qed.
Lemma znth_overflow l i : zlen l <= i -> znth l i = 0.
Proof. intros. unfold znth, zlen in *. apply nth_overflow. lia. Qed.

Lemma upd_length {A} n (v:A) l : length (upd n v l) = length l.
Proof. revert n; induction l; destruct n; cbn; auto. Qed.
Lemma zupd_zlen i v l : zlen (zupd i v l) = zlen l.
Proof. unfold zlen, zupd. now rewrite upd_length. Qed.
Lemma upd_nth {A} n m (v d:A) l : (n < length l)%nat ->
  nth m (upd n v l) d = if Nat.eqb m n then v else nth m l d.
Proof.
  revert n m; induction l; intros n m H; [cbn in H; lia|].
  destruct n, m; cbn in *; auto. apply IHl. lia.
Qed.
Lemma znth_zupd i j v l : 0 <= i < zlen l -> 0 <= j ->
  znth (zupd i v l) j = if Z.eqb j i then v else znth l j.
Proof.
  intros. unfold znth, zupd. rewrite upd_nth by (unfold zlen in *; lia).
  destruct (Z.eqb_spec j i); subst; [now rewrite Nat.eqb_refl|].
  destruct (Nat.eqb_spec (Z.to_nat j) (Z.to_nat i)); auto; lia.
Qed.
Lemma upd_oob {A} n (v:A) l : (length l <= n)%nat -> upd n v l = l.
Proof. revert n; induction l; destruct n; cbn; intros; auto; try lia. f_equal. apply IHl. lia. Qed.
Lemma Forall_upd {A} (P:A->Prop) n v l : P v -> Forall P l -> Forall P (upd n v l).
Proof.
  intros Hv H. revert n. induction H; intros [|n]; cbn; constructor; auto.
Qed.

Lemma list_ext_znth l1 l2 :
  zlen l1 = zlen l2 -> (forall i, 0 <= i < zlen l1 -> znth l1 i = znth l2 i) -> l1 = l2.
Proof.
  intros HL H. apply (nth_ext _ _ 0 0); [unfold zlen in *; lia|].
  intros n Hn. specialize (H (Z.of_nat n)). unfold znth, zlen in *.
  rewrite Nat2Z.id in H. apply H. lia.
Qed.

(** ** Strictly increasing lists *)
Fixpoint incr (l : list Z) : Prop :=
  match l with
  | [] => True
  | x :: t => Forall (fun y => x < y) t /\ incr t
  end.

(** all elements in the half-open interval *)
Definition inb (lo hi : Z) (l : list Z) : Prop := Forall (fun x => lo <= x < hi) l.

Lemma incr_cons x l : incr (x::l) <-> Forall (fun y => x < y) l /\ incr l.
Proof. reflexivity. Qed.
Lemma incr_tail x l : incr (x::l) -> incr l.
Proof. cbn; tauto. Qed.
Lemma incr_head x l y : incr (x::l) -> In y l -> x < y.
Proof. intros [H _] Hy. rewrite Forall_forall in H. auto. Qed.
Lemma incr_app l1 l2 :
  incr (l1++l2) <-> incr l1 /\ incr l2 /\ (forall x y, In x l1 -> In y l2 -> x < y).
Proof.
  induction l1 as [|a l1 IH]; cbn.
  - firstorder.
  - rewrite IH, Forall_app, !Forall_forall. split.
    + intros ((H1&H2)&H3&H4&H5). repeat split; auto. intros x y [->|Hx] Hy; auto.
    + intros ((H1&H2)&H3&H4). repeat split; auto.
Qed.
Lemma incr_NoDup l : incr l -> NoDup l.
Proof.
  induction l; constructor.
  - intros Hin. pose proof (incr_head _ _ _ H Hin). lia.
  - apply IHl. now apply incr_tail in H.
Qed.
Lemma incr_filter f l : incr l -> incr (filter f l).
Proof.
  induction l; cbn; auto. intros [H1 H2]. destruct (f a); cbn; auto.
  split; auto. rewrite Forall_forall in *. intros y Hy. apply filter_In in Hy. apply H1; tauto.
Qed.
Lemma incr_ext l1 l2 : incr l1 -> incr l2 -> (forall x, In x l1 <-> In x l2) -> l1 = l2.
Proof.
  revert l2. induction l1 as [|a l1 IH]; intros [|b l2] H1 H2 HE; auto.
  - exfalso. apply (HE b). now left.
  - exfalso. apply (HE a). now left.
  - assert (a = b).
    { destruct (proj1 (HE a) (or_introl eq_refl)) as [|Ha]; auto.
      destruct (proj2 (HE b) (or_introl eq_refl)) as [|Hb]; auto.
      pose proof (incr_head _ _ _ H2 Ha). pose proof (incr_head _ _ _ H1 Hb). lia. }
    subst b. f_equal. apply IH; eauto using incr_tail.
    intros x. split; intros Hx.
    + destruct (proj1 (HE x) (or_intror Hx)) as [E|]; auto. subst.
      pose proof (incr_head _ _ _ H1 Hx). lia.
    + destruct (proj2 (HE x) (or_intror Hx)) as [E|]; auto. subst.
      pose proof (incr_head _ _ _ H2 Hx). lia.
Qed.
Lemma incr_map_add k l : incr l -> incr (map (fun x => k + x) l).
Proof.
  induction l; cbn; auto. intros [H1 H2]. split; auto.
  rewrite Forall_forall in *. intros y Hy. apply in_map_iff in Hy.
  destruct Hy as (z&<-&Hz). specialize (H1 z Hz). lia.
Qed.
Lemma incr_znth l i j : incr l -> 0 <= i -> i < j -> j < zlen l -> znth l i < znth l j.
Proof.
  intros H. revert i j. induction l as [|a l IH]; intros i j Hi Hij Hj.
  - rewrite zlen_nil in Hj. lia.
  - rewrite zlen_cons in Hj. rewrite (znth_cons_pos a l j) by lia.
    destruct (Z.eq_dec i 0) as [->|].
    + rewrite znth_cons_0. apply (incr_head _ _ _ H). apply znth_In. lia.
    + rewrite znth_cons_pos by lia. apply IH; eauto using incr_tail; lia.
Qed.
Lemma incr_znth_le l i j : incr l -> 0 <= i -> i <= j -> j < zlen l -> znth l i <= znth l j.
Proof.
  intros. destruct (Z.eq_dec i j); [subst; lia|].
  pose proof (incr_znth l i j). lia.
Qed.
Lemma znth_incr l : (forall i, 0 <= i -> i + 1 < zlen l -> znth l i < znth l (i+1)) -> incr l.
Proof.
  induction l as [|a l IH]; intros H; cbn; auto.
  assert (incr l) as Hl.
  { apply IH. intros i Hi Hi2. specialize (H (i+1)). rewrite zlen_cons in H.
    rewrite !znth_cons_pos in H by lia.
    replace (i+1-1) with i in H by lia. replace (i+1+1-1) with (i+1) in H by lia. apply H; lia. }
  split; auto. rewrite Forall_forall. intros y Hy.
  apply In_znth in Hy. destruct Hy as (i&Hi&<-).
  specialize (H 0). rewrite zlen_cons, znth_cons_0, znth_cons_pos in H by lia.
  replace (0+1-1) with 0 in H by lia.
  pose proof (incr_znth_le l 0 i Hl). lia.
Qed.
Lemma incr_znth_inj l i j : incr l -> 0 <= i < zlen l -> 0 <= j < zlen l ->
  znth l i = znth l j -> i = j.
Proof.
  intros H Hi Hj E. destruct (Z.lt_trichotomy i j) as [L|[L|L]]; auto.
  - pose proof (incr_znth l i j H). lia.
  - pose proof (incr_znth l j i H). lia.
Qed.

Lemma inb_cons lo hi x l : inb lo hi (x::l) <-> lo <= x < hi /\ inb lo hi l.
Proof. unfold inb. split; intros H; [inversion H|constructor]; tauto. Qed.
Lemma inb_In lo hi l x : inb lo hi l -> In x l -> lo <= x < hi.
Proof. unfold inb. rewrite Forall_forall. auto. Qed.
Lemma inb_app lo hi l1 l2 : inb lo hi (l1++l2) <-> inb lo hi l1 /\ inb lo hi l2.
Proof. unfold inb. apply Forall_app. Qed.
Lemma inb_incl lo hi l1 l2 : incl l1 l2 -> inb lo hi l2 -> inb lo hi l1.
Proof. unfold inb. rewrite !Forall_forall. auto. Qed.
Lemma inb_filter lo hi f l : inb lo hi l -> inb lo hi (filter f l).
Proof. apply inb_incl. intros x Hx. apply filter_In in Hx. tauto. Qed.

(** number of elements of an increasing list inside [lo,hi) is at most hi-lo *)
Lemma incr_inb_len lo hi l : incr l -> inb lo hi l -> lo <= hi -> zlen l <= hi - lo.
Proof.
  revert lo. induction l as [|a l IH]; intros lo H1 H2 H3.
  - rewrite zlen_nil. lia.
  - rewrite zlen_cons. apply inb_cons in H2. destruct H2 as [Ha H2].
    assert (zlen l <= hi - (a+1)).
    { apply IH; eauto using incr_tail; try lia.
      unfold inb in *. rewrite Forall_forall in *. intros x Hx.
      specialize (H2 x Hx). pose proof (incr_head _ _ _ H1 Hx). lia. }
    lia.
Qed.

(** boolean membership *)
Definition zmem (x : Z) (l : list Z) : bool := existsb (Z.eqb x) l.
Lemma zmem_In x l : zmem x l = true <-> In x l.
Proof.
  unfold zmem. rewrite existsb_exists. split.
  - intros (y&Hy&E). apply Z.eqb_eq in E. now subst.
  - intros H. exists x. split; auto. apply Z.eqb_refl.
Qed.
Lemma zmem_nIn x l : zmem x l = false <-> ~ In x l.
Proof.
  rewrite <- zmem_In. destruct (zmem x l); split; intros; congruence || (try tauto).
Qed.

(** ** Integer ranges *)
Fixpoint zrange (lo : Z) (n : nat) : list Z :=
  match n with
  | O => []
  | S m => lo :: zrange (lo + 1) m
  end.
(** [zr lo hi] = lo, lo+1, ..., hi-1 *)
Definition zr (lo hi : Z) : list Z := zrange lo (Z.to_nat (hi - lo)).

Lemma zrange_In lo n x : In x (zrange lo n) <-> lo <= x < lo + Z.of_nat n.
Proof.
  revert lo; induction n; intros; cbn [zrange In]; [lia|]. rewrite IHn. lia.
Qed.
Lemma zrange_length lo n : length (zrange lo n) = n.
Proof. revert lo; induction n; cbn; auto. Qed.
Lemma zrange_incr lo n : incr (zrange lo n).
Proof.
  revert lo; induction n; intros; cbn; auto. split; auto.
  rewrite Forall_forall. intros y Hy. apply zrange_In in Hy. lia.
Qed.
Lemma zr_In lo hi x : In x (zr lo hi) <-> lo <= x < hi.
Proof. unfold zr. rewrite zrange_In. lia. Qed.
Lemma zr_incr lo hi : incr (zr lo hi).
Proof. apply zrange_incr. Qed.
Lemma zr_zlen lo hi : lo <= hi -> zlen (zr lo hi) = hi - lo.
Proof. intros. unfold zlen, zr. rewrite zrange_length. lia. Qed.
Lemma zr_nil lo hi : hi <= lo -> zr lo hi = [].
Proof. intros. unfold zr. replace (Z.to_nat (hi-lo)) with O by lia. reflexivity. Qed.
Lemma zr_cons lo hi : lo < hi -> zr lo hi = lo :: zr (lo+1) hi.
Proof.
  intros. unfold zr. replace (Z.to_nat (hi-lo)) with (S (Z.to_nat (hi-(lo+1)))) by lia. reflexivity.
Qed.
Lemma zr_app a b c : a <= b -> b <= c -> zr a c = zr a b ++ zr b c.
Proof.
  intros. apply incr_ext.
  - apply zr_incr.
  - apply incr_app. repeat split; try apply zr_incr. intros x y. rewrite !zr_In. lia.
  - intros x. rewrite in_app_iff, !zr_In. lia.
Qed.
Lemma zr_snoc lo hi : lo <= hi -> zr lo (hi+1) = zr lo hi ++ [hi].
Proof.
  intros. rewrite (zr_app lo hi (hi+1)) by lia. f_equal. rewrite zr_cons by lia.
  now rewrite zr_nil by lia.
Qed.
Lemma zr_znth lo hi i : 0 <= i < hi - lo -> znth (zr lo hi) i = lo + i.
Proof.
  intros. unfold zr, znth.
  assert (forall n l k, (k < n)%nat -> nth k (zrange l n) 0 = l + Z.of_nat k) as G.
  { induction n; intros l k Hk; [lia|]. destruct k; cbn [zrange nth]; [lia|].
    rewrite IHn by lia. lia. }
  rewrite G by lia. lia.
Qed.
Lemma zr_map_add k lo hi : map (fun x => k + x) (zr lo hi) = zr (k+lo) (k+hi).
Proof.
  apply incr_ext; try apply zr_incr.
  - apply incr_map_add, zr_incr.
  - intros x. rewrite in_map_iff, zr_In. setoid_rewrite zr_In. split.
    + intros (y&<-&Hy). lia.
    + intros H. exists (x-k). lia.
Qed.

(** ** filter / counting *)
Lemma filter_ext_In {A} (f g : A -> bool) l :
  (forall x, In x l -> f x = g x) -> filter f l = filter g l.
Proof. apply filter_ext_in. Qed.
Lemma filter_all {A} (f : A -> bool) l : (forall x, In x l -> f x = true) -> filter f l = l.
Proof.
  induction l; cbn; intros H; auto. rewrite (H a) by auto. f_equal. apply IHl. auto.
Qed.
Lemma filter_none {A} (f : A -> bool) l : (forall x, In x l -> f x = false) -> filter f l = [].
Proof.
  induction l; cbn; intros H; auto. rewrite (H a) by auto. apply IHl. auto.
Qed.
Lemma filter_len_le {A} (f : A -> bool) l : zlen (filter f l) <= zlen l.
Proof.
  induction l; cbn; [lia|]. destruct (f a); rewrite ?zlen_cons; lia.
Qed.
Lemma filter_len_compl {A} (f : A -> bool) l :
  zlen (filter f l) + zlen (filter (fun x => negb (f x)) l) = zlen l.
Proof.
  induction l; cbn; auto. destruct (f a); cbn [negb]; rewrite ?zlen_cons; lia.
Qed.

(** number of members of a boolean predicate in [lo,hi) *)
Definition cnt (P : Z -> bool) (lo hi : Z) : Z := zlen (filter P (zr lo hi)).

Lemma cnt_ext P Q lo hi : (forall x, lo <= x < hi -> P x = Q x) -> cnt P lo hi = cnt Q lo hi.
Proof.
  intros H. unfold cnt. f_equal. apply filter_ext_In. intros x Hx. apply H. now apply zr_In.
Qed.
Lemma cnt_app P a b c : a <= b -> b <= c -> cnt P a c = cnt P a b + cnt P b c.
Proof. intros. unfold cnt. rewrite (zr_app a b c) by lia. now rewrite filter_app, zlen_app. Qed.
Lemma cnt_nil P lo hi : hi <= lo -> cnt P lo hi = 0.
Proof. intros. unfold cnt. now rewrite zr_nil. Qed.
Lemma cnt_bound P lo hi : lo <= hi -> 0 <= cnt P lo hi <= hi - lo.
Proof.
  intros. unfold cnt. pose proof (filter_len_le P (zr lo hi)).
  rewrite zr_zlen in H0 by lia. pose proof (zlen_nonneg (filter P (zr lo hi))). lia.
Qed.
Lemma cnt_cons P lo hi : lo < hi -> cnt P lo hi = (if P lo then 1 else 0) + cnt P (lo+1) hi.
Proof.
  intros. unfold cnt. rewrite zr_cons by lia. cbn [filter]. destruct (P lo); rewrite ?zlen_cons; lia.
Qed.
Lemma cnt_snoc P lo hi : lo <= hi -> cnt P lo (hi+1) = cnt P lo hi + (if P hi then 1 else 0).
Proof.
  intros. rewrite (cnt_app P lo hi (hi+1)) by lia. f_equal.
  rewrite cnt_cons by lia. rewrite cnt_nil by lia. lia.
Qed.
Lemma cnt_compl P lo hi : lo <= hi -> cnt (fun x => negb (P x)) lo hi = hi - lo - cnt P lo hi.
Proof.
  intros. unfold cnt. pose proof (filter_len_compl P (zr lo hi)). rewrite zr_zlen in H0 by lia. lia.
Qed.
Lemma cnt_full P lo hi : lo <= hi -> (forall x, lo <= x < hi -> P x = true) -> cnt P lo hi = hi - lo.
Proof.
  intros H HP. unfold cnt. rewrite filter_all; [apply zr_zlen; lia|].
  intros x Hx. apply HP. now apply zr_In.
Qed.
Lemma cnt_none P lo hi : (forall x, lo <= x < hi -> P x = false) -> cnt P lo hi = 0.
Proof.
  intros HP. unfold cnt. rewrite filter_none; auto.
  intros x Hx. apply HP. now apply zr_In.
Qed.
Lemma cnt_full_inv P lo hi : lo <= hi -> cnt P lo hi = hi - lo -> forall x, lo <= x < hi -> P x = true.
Proof.
  intros H HP x Hx. destruct (P x) eqn:E; auto. exfalso.
  rewrite (cnt_app P lo x hi) in HP by lia. rewrite (cnt_cons P x hi) in HP by lia.
  rewrite E in HP. pose proof (cnt_bound P lo x). pose proof (cnt_bound P (x+1) hi). lia.
Qed.
Lemma cnt_none_inv P lo hi : cnt P lo hi = 0 -> forall x, lo <= x < hi -> P x = false.
Proof.
  intros HP x Hx. destruct (P x) eqn:E; auto. exfalso.
  rewrite (cnt_app P lo x hi) in HP by lia. rewrite (cnt_cons P x hi) in HP by lia.
  rewrite E in HP. pose proof (cnt_bound P lo x). pose proof (cnt_bound P (x+1) hi). lia.
Qed.
Lemma cnt_mono P Q lo hi : (forall x, lo <= x < hi -> P x = true -> Q x = true) -> cnt P lo hi <= cnt Q lo hi.
Proof.
  intros H. destruct (Z_le_dec lo hi); [|rewrite !cnt_nil; lia].
  revert H. pattern hi. apply Zlt_lower_bound_ind with (z := lo); [|lia]. intros y IH Hy H.
  destruct (Z.eq_dec y lo) as [->|]; [rewrite !cnt_nil; lia|].
  replace y with (y-1+1) by lia. rewrite !cnt_snoc by lia.
  assert (cnt P lo (y-1) <= cnt Q lo (y-1)) by (apply IH; [lia|intros; apply H; auto; lia]).
  specialize (H (y-1)). destruct (P (y-1)), (Q (y-1)); lia.
Qed.
Lemma cnt_list P lo hi l : incr l -> inb lo hi l ->
  (forall x, lo <= x < hi -> (P x = true <-> In x l)) -> cnt P lo hi = zlen l.
Proof.
  intros H1 H2 H3. unfold cnt. f_equal. apply incr_ext; auto.
  - apply incr_filter, zr_incr.
  - intros x. rewrite filter_In, zr_In. split.
    + intros [Hx Hp]. now apply H3.
    + intros Hx. pose proof (inb_In _ _ _ _ H2 Hx). split; auto. now apply H3.
Qed.
Lemma cnt_shift P lo hi d : cnt (fun x => P (x + d)) lo hi = cnt P (lo+d) (hi+d).
Proof.
  unfold cnt. assert (zr (lo+d) (hi+d) = map (fun x => d + x) (zr lo hi)) as ->.
  { rewrite zr_map_add. f_equal; lia. }
  induction (zr lo hi); cbn; auto. rewrite (Z.add_comm a d).
  destruct (P (d+a)); rewrite ?zlen_cons; lia.
Qed.
(** inclusion-exclusion *)
Lemma cnt_incl_excl P Q lo hi :
  cnt (fun x => P x || Q x) lo hi + cnt (fun x => P x && Q x) lo hi = cnt P lo hi + cnt Q lo hi.
Proof.
  unfold cnt. induction (zr lo hi) as [|a l IH]; cbn; auto.
  destruct (P a), (Q a); cbn [orb andb]; rewrite ?zlen_cons; lia.
Qed.
