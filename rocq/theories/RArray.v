(** RArray: the two-level index of include/roaring/roaring_array.h and
    src/roaring_array.c.  A roaring_array_t is the list of its (key, container)
    pairs in index order: ra->size is the length of the list, ra->keys[i] is
    [rkey r i], ra->containers[i]/typecodes[i] is [rcon r i] (the typecode is the
    constructor of the container).  Spare capacity, the COW/FROZEN flags and SHARED
    wrappers are not part of this value; the flags and wrappers are modelled in Cow.v. *)
From Verif Require Import Base ArrayUtil BitUtil BitsetC ArrayC RunC RunD Convert MixedI MixedU MixedA MixedN Containers.

Notation entry := (Z * container)%type.
Definition bitmap := list entry.

Definition dflt : entry := (0, CArr []).
Definition rnth (r : bitmap) (i : Z) : entry := nth (Z.to_nat i) r dflt.
Definition rkeys (r : bitmap) : list Z := map fst r.
(** roaring_array.h:96-98 ra_get_key_at_index *)
Definition rkey (r : bitmap) (i : Z) : Z := fst (rnth r i).
(** roaring_array.h:87-91 ra_get_container_at_index *)
Definition rcon (r : bitmap) (i : Z) : container := snd (rnth r i).
Definition zdrop {A} (n : Z) (l : list A) : list A := skipn (Z.to_nat n) l.
Definition zfirst {A} (n : Z) (l : list A) : list A := firstn (Z.to_nat n) l.

(** roaring_array.h:79-82 ra_get_index *)
Definition ra_get_index (r : bitmap) (x : Z) : Z :=
  if (zlen r =? 0) || (rkey r (zlen r - 1) =? x) then zlen r - 1
  else binarySearch (rkeys r) x.
(** roaring_array.c:348-362 ra_insert_new_key_value_at (three memmoves and a store) *)
Definition ra_insert_new_key_value_at (r : bitmap) (i key : Z) (c : container) : bitmap :=
  zfirst i r ++ (key, c) :: zdrop i r.
(** roaring_array.c:374-382 ra_remove_at_index; 384-387 ra_remove_at_index_and_free *)
Definition ra_remove_at_index (r : bitmap) (i : Z) : bitmap := zfirst i r ++ zdrop (i + 1) r.
(** roaring_array.h:160-165 ra_set_container_at_index *)
Definition ra_set_container_at_index (r : bitmap) (i : Z) (c : container) : bitmap :=
  upd (Z.to_nat i) (rkey r i, c) r.
(** roaring_array.h:188-197 ra_replace_key_and_container_at_index *)
Definition ra_replace_key_and_container_at_index (r : bitmap) (i key : Z) (c : container) : bitmap :=
  upd (Z.to_nat i) (key, c) r.
(** roaring_array.h:179-182 ra_advance_until *)
Definition ra_advance_until (r : bitmap) (x pos : Z) : Z := advanceUntil (rkeys r) pos (zlen r) x.
(** roaring_array.c:340-346 ra_advance_until_freeing: a linear scan (the freed
    containers are not visible in this value) *)
Fixpoint ra_advance_until_freeing (fuel : nat) (r : bitmap) (x pos : Z) : Z :=
  match fuel with
  | O => pos
  | S f => if (pos <? zlen r) && (rkey r pos <? x) then ra_advance_until_freeing f r x (pos + 1) else pos
  end.
(** roaring_array.c:369-372 ra_downsize *)
Definition ra_downsize (r : bitmap) (n : Z) : bitmap := zfirst n r.
(** roaring_array.c:394-410 ra_copy_range: memmove of entries [begin,end) to new_begin *)
Definition ra_copy_range (r : bitmap) (begin_ end_ new_begin : Z) : bitmap :=
  zfirst new_begin r ++ zfirst (end_ - begin_) (zdrop begin_ r) ++ zdrop (new_begin + (end_ - begin_)) r.
(** roaring_array.c:412-424 ra_shift_tail: the last [count] entries move by
    [distance]; the slots opened by a positive distance keep arbitrary old
    contents, here [dflt] beyond the old size (the caller overwrites them all). *)
Definition ra_shift_tail (r : bitmap) (count distance : Z) : bitmap :=
  let srcpos := zlen r - count in
  if 0 <? distance then
    zfirst srcpos r ++ zfirst distance (zdrop srcpos r ++ repeat dflt (Z.to_nat distance)) ++ zdrop srcpos r
  else zfirst (srcpos + distance) r ++ zdrop srcpos r.
(** roaring_array.c:252-271 ra_append_copy_range: the copied entries *)
Definition ra_append_copy_range (answer r : bitmap) (start_index end_index : Z) : bitmap :=
  answer ++ zfirst (end_index - start_index) (zdrop start_index r).

(** ** Abstract view *)
Fixpoint look (r : bitmap) (k : Z) : option container :=
  match r with
  | [] => None
  | (k', c) :: t => if k =? k' then Some c else look t k
  end.
(** membership of the value 65536*k + x *)
Definition km (r : bitmap) (k x : Z) : bool := match look r k with Some c => cmem c x | None => false end.
Definition mem (r : bitmap) (v : Z) : bool := km r (v / 65536) (v mod 65536).

(** keys strictly increasing in [lo,65536) and every container satisfies C *)
Definition gok (C : container -> Prop) (lo : Z) (r : bitmap) : Prop :=
  incr (rkeys r) /\ inb lo 65536 (rkeys r) /\ Forall (fun p => C (snd p)) r.
Definition bok (r : bitmap) : Prop := gok cok 0 r.
Definition bmrep (C : container -> Prop) (lo : Z) (r : bitmap) (P : Z -> Z -> bool) : Prop :=
  gok C lo r /\ forall k x, lo <= k < 65536 -> 0 <= x < 65536 -> km r k x = P k x.

(** ** List plumbing *)
Lemma zdrop_0 {A} (l : list A) : zdrop 0 l = l. Proof. reflexivity. Qed.
Lemma zdrop_all {A} n (l : list A) : zlen l <= n -> zdrop n l = [].
Proof. intros. unfold zdrop. apply skipn_all2. unfold zlen in *. lia. Qed.
Lemma zfirst_all {A} n (l : list A) : zlen l <= n -> zfirst n l = l.
Proof. intros. unfold zfirst. apply firstn_all2. unfold zlen in *. lia. Qed.
Lemma zfirst_zdrop {A} n (l : list A) : zfirst n l ++ zdrop n l = l.
Proof. apply firstn_skipn. Qed.
Lemma zdrop_app {A} n (a b : list A) : zlen a = n -> zdrop n (a ++ b) = b.
Proof.
  intros. unfold zdrop. rewrite skipn_app. unfold zlen in *.
  replace (Z.to_nat n) with (length a) by lia. rewrite skipn_all, Nat.sub_diag. reflexivity.
Qed.
Lemma zfirst_app {A} n (a b : list A) : zlen a = n -> zfirst n (a ++ b) = a.
Proof.
  intros. unfold zfirst. rewrite firstn_app. unfold zlen in *.
  replace (Z.to_nat n) with (length a) by lia. rewrite firstn_all, Nat.sub_diag. cbn. apply app_nil_r.
Qed.
Lemma zfirst_zlen {A} n (l : list A) : 0 <= n <= zlen l -> zlen (zfirst n l) = n.
Proof. intros. unfold zfirst, zlen in *. rewrite firstn_length. lia. Qed.
Lemma zdrop_zlen {A} n (l : list A) : 0 <= n <= zlen l -> zlen (zdrop n l) = zlen l - n.
Proof. intros. unfold zdrop, zlen in *. rewrite skipn_length. lia. Qed.
Lemma zdrop_zdrop {A} a b (l : list A) : 0 <= a -> 0 <= b -> zdrop a (zdrop b l) = zdrop (a + b) l.
Proof.
  intros. unfold zdrop. rewrite Z2Nat.inj_add by lia.
  remember (Z.to_nat a) as n. remember (Z.to_nat b) as m. clear.
  revert m. induction l as [|x l IH]; intros; [now rewrite !skipn_nil|].
  destruct m; cbn [skipn Nat.add]; [now rewrite Nat.add_0_r|].
  rewrite Nat.add_succ_r. cbn [skipn]. apply IH.
Qed.
Lemma zdrop_S {A} (d : A) i (l : list A) : 0 <= i < zlen l -> zdrop i l = nth (Z.to_nat i) l d :: zdrop (i + 1) l.
Proof.
  intros. unfold zdrop. rewrite Z2Nat.inj_add by lia. change (Z.to_nat 1) with 1%nat.
  assert (Z.to_nat i < length l)%nat by (unfold zlen in *; lia).
  remember (Z.to_nat i) as n. clear - H0. revert l H0. induction n; intros [|x l] H; cbn in *; try lia; auto.
  apply IHn. lia.
Qed.
Lemma rdrop_S r i : 0 <= i < zlen r -> zdrop i r = (rkey r i, rcon r i) :: zdrop (i + 1) r.
Proof.
  intros. rewrite (zdrop_S dflt) by auto. unfold rkey, rcon, rnth. now destruct (nth (Z.to_nat i) r dflt).
Qed.
Lemma rnth_app1 a b i : 0 <= i < zlen a -> rnth (a ++ b) i = rnth a i.
Proof. intros. unfold rnth, zlen in *. apply app_nth1. lia. Qed.
Lemma rnth_app2 a b i : zlen a <= i -> rnth (a ++ b) i = rnth b (i - zlen a).
Proof. intros. unfold rnth, zlen in *. rewrite app_nth2 by lia. f_equal. lia. Qed.
Lemma upd_app {A} (v x : A) (a b : list A) : upd (length a) v (a ++ x :: b) = a ++ v :: b.
Proof. induction a; cbn; congruence. Qed.
Lemma zupd_app {A} i (v x : A) (a b : list A) : zlen a = i -> upd (Z.to_nat i) v (a ++ x :: b) = a ++ v :: b.
Proof. intros <-. unfold zlen. rewrite Nat2Z.id. apply upd_app. Qed.
Lemma zlen_rkeys r : zlen (rkeys r) = zlen r. Proof. apply zlen_map. Qed.
Lemma znth_rkeys r i : 0 <= i < zlen r -> znth (rkeys r) i = rkey r i.
Proof.
  intros. unfold znth, rkey, rnth, rkeys. change 0 with (fst dflt) at 1. now rewrite map_nth.
Qed.
Lemma rkeys_app a b : rkeys (a ++ b) = rkeys a ++ rkeys b. Proof. apply map_app. Qed.
Lemma rkeys_zdrop i r : rkeys (zdrop i r) = zdrop i (rkeys r).
Proof. unfold rkeys, zdrop. symmetry. apply skipn_map. Qed.

(** ** look / km *)
Lemma look_app a b k : look (a ++ b) k = match look a k with Some c => Some c | None => look b k end.
Proof. induction a as [|[k' c] a IH]; cbn; auto. destruct (k =? k'); auto. Qed.
Lemma look_none r k : ~ In k (rkeys r) -> look r k = None.
Proof. induction r as [|[k' c] r IH]; cbn; auto. intros. destruct (Z.eqb_spec k k'); [lia|]. apply IH. tauto. Qed.
Lemma look_some r k c : look r k = Some c -> In (k, c) r.
Proof. induction r as [|[k' c'] r IH]; cbn; [discriminate|]. destruct (Z.eqb_spec k k'); intros E; [injection E; intros; subst; auto|auto]. Qed.
Lemma look_In r k c : incr (rkeys r) -> In (k, c) r -> look r k = Some c.
Proof.
  induction r as [|[k' c'] r IH]; cbn [look rkeys map fst]; intros Hi Hin; [destruct Hin|].
  destruct Hin as [E|Hin].
  - injection E; intros; subst. now rewrite Z.eqb_refl.
  - assert (k' < k). { apply (incr_head k' (rkeys r)); auto. now apply (in_map fst) in Hin. }
    replace (k =? k') with false by lia. apply IH; auto. now apply incr_tail in Hi.
Qed.
Lemma km_nil k x : km [] k x = false. Proof. reflexivity. Qed.
Lemma km_head k c t x : km ((k, c) :: t) k x = cmem c x.
Proof. unfold km; cbn. now rewrite Z.eqb_refl. Qed.
Lemma km_tail k c t j x : j <> k -> km ((k, c) :: t) j x = km t j x.
Proof. intros. unfold km; cbn. now replace (j =? k) with false by lia. Qed.
Lemma km_below C lo r k x : gok C lo r -> k < lo -> km r k x = false.
Proof.
  intros (_&H&_) Hk. unfold km. rewrite look_none; auto. intros Hin. pose proof (inb_In _ _ _ _ H Hin). lia.
Qed.
Lemma km_app a b k x : (look a k = None \/ look b k = None) -> km (a ++ b) k x = km a k x || km b k x.
Proof. intros. unfold km. rewrite look_app. destruct (look a k), (look b k); rewrite ?orb_false_r; auto. destruct H; discriminate. Qed.
Lemma km_app_l a b k x : ~ In k (rkeys b) -> km (a ++ b) k x = km a k x.
Proof. intros. unfold km. rewrite look_app. rewrite (look_none b) by auto. now destruct (look a k). Qed.
Lemma km_app_r a b k x : ~ In k (rkeys a) -> km (a ++ b) k x = km b k x.
Proof. intros. unfold km. rewrite look_app. now rewrite (look_none a) by auto. Qed.

(** ** gok *)
Lemma gok_nil C lo : gok C lo []. Proof. repeat split; constructor. Qed.
Lemma gok_cons C lo k c t : gok C lo ((k, c) :: t) <-> lo <= k < 65536 /\ C c /\ gok C (k + 1) t.
Proof.
  unfold gok, rkeys; cbn [map fst snd]. rewrite incr_cons, inb_cons, Forall_cons_iff. cbn [snd]. split.
  - intros ((A&B)&(D&E)&F&G). repeat split; auto; try lia.
    apply inb_intro. intros y Hy. pose proof (inb_In _ _ _ _ E Hy). rewrite Forall_forall in A. specialize (A y Hy). lia.
  - intros (D&F&A&B&G). repeat split; auto; try lia.
    + apply Forall_forall. intros y Hy. pose proof (inb_In _ _ _ _ B Hy). lia.
    + apply inb_intro. intros y Hy. pose proof (inb_In _ _ _ _ B Hy). lia.
Qed.
Lemma gok_weaken C lo lo' r : gok C lo r -> lo' <= lo -> gok C lo' r.
Proof. intros (A&B&D) H. repeat split; auto. apply inb_intro. intros y Hy. pose proof (inb_In _ _ _ _ B Hy). lia. Qed.
Lemma gok_impl (C D : container -> Prop) lo r : (forall c, C c -> D c) -> gok C lo r -> gok D lo r.
Proof. intros H (A&B&E). repeat split; auto. eapply Forall_impl; [|eauto]. cbn. auto. Qed.
Lemma gok_app C lo a b : gok C lo (a ++ b) <->
  gok C lo a /\ gok C lo b /\ (forall x y, In x (rkeys a) -> In y (rkeys b) -> x < y).
Proof.
  unfold gok. rewrite rkeys_app, incr_app, inb_app, Forall_app. tauto.
Qed.
Lemma gok_zdrop C lo i r : gok C lo r -> gok C lo (zdrop i r).
Proof. intros H. rewrite <- (zfirst_zdrop i r) in H. apply gok_app in H. tauto. Qed.
Lemma gok_zfirst C lo i r : gok C lo r -> gok C lo (zfirst i r).
Proof. intros H. rewrite <- (zfirst_zdrop i r) in H. apply gok_app in H. tauto. Qed.
Lemma gok_look C lo r k c : gok C lo r -> look r k = Some c -> C c /\ lo <= k < 65536.
Proof.
  intros (A&B&D) H. apply look_some in H. rewrite Forall_forall in D. split; [apply (D _ H)|].
  apply (inb_In _ _ _ _ B). now apply (in_map fst) in H.
Qed.
Lemma gok_size C lo r : gok C lo r -> 0 <= lo <= 65536 -> zlen r <= 65536 - lo.
Proof. intros (A&B&_) H. rewrite <- zlen_rkeys. apply incr_inb_len; auto; lia. Qed.

(** ** bmrep *)
Lemma bmrep_nil C lo P : (forall k x, lo <= k < 65536 -> 0 <= x < 65536 -> P k x = false) -> bmrep C lo [] P.
Proof. intros H. split; [apply gok_nil|]. intros. symmetry. now apply H. Qed.
Lemma bmrep_cons (C : container -> Prop) lo k c t P : lo <= k < 65536 -> C c -> (forall x, 0 <= x < 65536 -> cmem c x = P k x) ->
  (forall j x, lo <= j < k -> 0 <= x < 65536 -> P j x = false) -> bmrep C (k + 1) t P ->
  bmrep C lo ((k, c) :: t) P.
Proof.
  intros Hk Hc He Hlo (Hg&Ht). split; [now apply gok_cons|]. intros j x Hj Hx.
  destruct (Z.lt_trichotomy j k) as [L|[L|L]].
  - rewrite km_tail by lia. rewrite (km_below C (k+1)) by (auto; lia). symmetry. apply Hlo; lia.
  - subst. rewrite km_head. auto.
  - rewrite km_tail by lia. apply Ht; lia.
Qed.
Lemma bmrep_skip C lo lo' r P : bmrep C lo' r P -> lo <= lo' ->
  (forall j x, lo <= j < lo' -> 0 <= x < 65536 -> P j x = false) -> bmrep C lo r P.
Proof.
  intros (Hg&Hr) Hl Hlo. split; [eapply gok_weaken; eauto|]. intros j x Hj Hx.
  destruct (Z_lt_dec j lo').
  - rewrite (km_below C lo') by (auto; lia). symmetry. apply Hlo; lia.
  - apply Hr; lia.
Qed.
Lemma bmrep_ext C lo r P Q : bmrep C lo r P ->
  (forall k x, lo <= k < 65536 -> 0 <= x < 65536 -> P k x = Q k x) -> bmrep C lo r Q.
Proof. intros (Hg&Hr) H. split; auto. intros. rewrite Hr by auto. now apply H. Qed.
Lemma bmrep_self C lo r : gok C lo r -> bmrep C lo r (km r).
Proof. intros. split; auto. Qed.

(** from (key, low) membership to membership of 32-bit values *)
Lemma mem_km r v : mem r v = km r (v / 65536) (v mod 65536). Proof. reflexivity. Qed.
Lemma mem_split k x r : 0 <= x < 65536 -> mem r (65536 * k + x) = km r k x.
Proof.
  intros. unfold mem. replace ((65536 * k + x) / 65536) with k by dm. now replace ((65536 * k + x) mod 65536) with x by dm.
Qed.
Lemma bmrep_mem r P : bmrep cok 0 r P -> forall v, 0 <= v < 2^32 -> mem r v = P (v / 65536) (v mod 65536).
Proof. intros (_&H) v Hv. unfold mem. apply H; dm. Qed.
Lemma mem_oob r v : bok r -> ~ (0 <= v < 2^32) -> mem r v = false.
Proof.
  intros (A&B&_) Hv. unfold mem, km. rewrite look_none; auto. intros Hin. pose proof (inb_In _ _ _ _ B Hin). dm.
Qed.

(** ** Index functions *)
Lemma rkeys_split r : forall i, 0 <= i < zlen r -> r = zfirst i r ++ (rkey r i, rcon r i) :: zdrop (i + 1) r.
Proof. intros i Hi. rewrite <- rdrop_S by auto. now rewrite zfirst_zdrop. Qed.

Lemma ra_get_index_eq r x : incr (rkeys r) ->
  ra_get_index r x = if zmem x (rkeys r) then lb (rkeys r) x else - (lb (rkeys r) x + 1).
Proof.
  intros H. unfold ra_get_index. destruct (Z.eqb_spec (zlen r) 0) as [E|E].
  - apply zlen_0_nil in E. subst. reflexivity.
  - pose proof (zlen_nonneg r). cbn [orb]. destruct (Z.eqb_spec (rkey r (zlen r - 1)) x) as [E2|E2].
    + rewrite <- znth_rkeys in E2 by lia. subst x.
      assert (Hin : In (znth (rkeys r) (zlen r - 1)) (rkeys r)) by (apply znth_In; rewrite zlen_rkeys; lia).
      apply zmem_In in Hin as Hz. rewrite Hz. apply lb_In in Hin; auto. destruct Hin as (L&Q).
      apply incr_znth_inj in Q; auto; rewrite ?zlen_rkeys in *; try lia.
      pose proof (lb_bound (rkeys r) (znth (rkeys r) (zlen r - 1))). lia.
    + now apply binarySearch_spec.
Qed.
(** the decomposition used everywhere *)
Lemma ra_get_index_spec C lo r x : gok C lo r ->
  (exists pre c post, r = pre ++ (x, c) :: post /\ ra_get_index r x = zlen pre /\
      (forall y, In y (rkeys pre) -> y < x) /\ (forall y, In y (rkeys post) -> x < y)) \/
  (exists pre post, r = pre ++ post /\ ra_get_index r x = - (zlen pre) - 1 /\
      (forall y, In y (rkeys pre) -> y < x) /\ (forall y, In y (rkeys post) -> x < y)).
Proof.
  intros (Hi&_&_). rewrite ra_get_index_eq by auto. pose proof (lb_bound (rkeys r) x) as Hb. rewrite zlen_rkeys in Hb.
  destruct (zmem x (rkeys r)) eqn:E.
  - left. apply zmem_In in E. apply lb_In in E; auto. destruct E as (L&Q). rewrite zlen_rkeys in L.
    set (i := lb (rkeys r) x) in *. rewrite znth_rkeys in Q by lia.
    pose proof (rkeys_split r i ltac:(lia)) as S. rewrite Q in S.
    exists (zfirst i r), (rcon r i), (zdrop (i+1) r). split; [auto|]. split; [rewrite zfirst_zlen; lia|].
    rewrite S in Hi. rewrite rkeys_app in Hi. apply incr_app in Hi. destruct Hi as (I1&I2&I3).
    cbn [rkeys map fst] in I2, I3. split.
    + intros y Hy. apply I3; cbn; auto.
    + intros y Hy. apply (incr_head x _ y I2 Hy).
  - right. exists (zfirst (lb (rkeys r) x) r), (zdrop (lb (rkeys r) x) r).
    set (i := lb (rkeys r) x) in *.
    rewrite zfirst_zdrop, zfirst_zlen by lia. repeat split; try lia.
    + intros y Hy. apply In_znth in Hy. destruct Hy as (j&Hj&<-).
      rewrite zlen_rkeys, zfirst_zlen in Hj by lia.
      replace (znth (rkeys (zfirst i r)) j) with (znth (rkeys r) j).
      * apply lb_lt; auto.
      * rewrite <- (zfirst_zdrop i r) at 1. rewrite rkeys_app, znth_app1; auto. rewrite zlen_rkeys, zfirst_zlen; lia.
    + intros y Hy. assert (Hin : In y (rkeys r)).
      { rewrite <- (zfirst_zdrop i r), rkeys_app. apply in_or_app. auto. }
      apply zmem_nIn in E. assert (y <> x) by congruence.
      apply In_znth in Hy. destruct Hy as (j&Hj&Ey). rewrite zlen_rkeys, zdrop_zlen in Hj by lia.
      assert (Q : znth (rkeys r) (i + j) = y).
      { rewrite <- (zfirst_zdrop i r), rkeys_app, znth_app2; rewrite zlen_rkeys, zfirst_zlen; try lia.
        replace (i + j - i) with j by lia. auto. }
      pose proof (lb_ge (rkeys r) x (i + j) Hi) as G. rewrite zlen_rkeys in G. fold i in G. lia.
Qed.
Lemma ra_get_index_nonneg C lo r x : gok C lo r -> (0 <=? ra_get_index r x) = match look r x with Some _ => true | None => false end.
Proof.
  intros H. destruct (ra_get_index_spec C lo r x H) as [(pre&c&post&E&I&L&G)|(pre&post&E&I&L&G)].
  - rewrite I, E, look_app. rewrite look_none by (intros Hy; specialize (L _ Hy); lia). cbn. rewrite Z.eqb_refl.
    pose proof (zlen_nonneg pre). lia.
  - rewrite I, E, look_app. rewrite look_none by (intros Hy; specialize (L _ Hy); lia).
    rewrite look_none by (intros Hy; specialize (G _ Hy); lia). pose proof (zlen_nonneg pre). lia.
Qed.

Lemma adv_key r i j : incr (rkeys r) -> 0 <= i < j -> j < zlen r -> rkey r i < rkey r j.
Proof. intros. rewrite <- !znth_rkeys by lia. apply incr_znth; auto; try lia. rewrite zlen_rkeys. lia. Qed.

(** dropping entries whose keys are smaller than x does not change membership at keys >= x *)
Lemma km_zdrop_ge C lo r i j x k y : gok C lo r -> 0 <= i <= j -> j <= zlen r ->
  (forall q, i <= q < j -> rkey r q < x) -> x <= k -> km (zdrop i r) k y = km (zdrop j r) k y.
Proof.
  intros H Hij Hj Hlt Hk.
  assert (E : zdrop i r = zfirst (j - i) (zdrop i r) ++ zdrop j r).
  { replace (zdrop j r) with (zdrop (j - i) (zdrop i r)) by (rewrite zdrop_zdrop by lia; f_equal; lia). now rewrite zfirst_zdrop. }
  rewrite E, km_app_r; auto. intros Hin. apply In_znth in Hin. destruct Hin as (q&Hq&Q).
  assert (Hz : zlen (zdrop i r) = zlen r - i) by (apply zdrop_zlen; lia).
  rewrite zlen_rkeys, zfirst_zlen in Hq by lia.
  assert (A1 : znth (rkeys (zdrop i r)) q = k).
  { rewrite E, rkeys_app, znth_app1; auto. rewrite zlen_rkeys, zfirst_zlen; lia. }
  assert (A2 : znth (rkeys r) (i + q) = k).
  { rewrite <- (zfirst_zdrop i r), rkeys_app, znth_app2; rewrite zlen_rkeys, zfirst_zlen; try lia.
    replace (i + q - i) with q by lia. auto. }
  rewrite znth_rkeys in A2 by lia. specialize (Hlt (i + q) ltac:(lia)). lia.
Qed.
Lemma ra_advance_until_spec r x pos : incr (rkeys r) -> -1 <= pos < zlen r -> (0 <= pos -> rkey r pos < x) ->
  let j := ra_advance_until r x pos in
  pos < j <= zlen r /\ (forall q, 0 <= q < j -> rkey r q < x) /\ (forall q, j <= q < zlen r -> x <= rkey r q).
Proof.
  intros H Hp Hx. cbn zeta. unfold ra_advance_until.
  assert (E : advanceUntil (rkeys r) pos (zlen r) x = lb (rkeys r) x).
  { rewrite <- (zlen_rkeys r). apply advanceUntil_lb; auto; rewrite ?zlen_rkeys; try lia.
    intros. rewrite znth_rkeys by lia. auto. }
  pose proof (advanceUntil_raw (rkeys r) pos (zlen r) x H) as R. rewrite zlen_rkeys in R.
  specialize (R ltac:(lia) ltac:(lia) ltac:(lia)). cbn zeta in R. destruct R as (R1&R2&R3).
  rewrite E in *. split; [lia|]. split.
  - intros q Hq. pose proof (lb_lt (rkeys r) x q H Hq). rewrite znth_rkeys in H0 by lia. auto.
  - intros q Hq. pose proof (lb_ge (rkeys r) x q H) as G. rewrite zlen_rkeys in G. specialize (G Hq).
    rewrite znth_rkeys in G by (pose proof (lb_bound (rkeys r) x); lia). auto.
Qed.
Lemma ra_advance_until_freeing_spec fuel r x pos : incr (rkeys r) -> 0 <= pos <= zlen r -> zlen r - pos < Z.of_nat fuel ->
  let j := ra_advance_until_freeing fuel r x pos in
  pos <= j <= zlen r /\ (forall q, pos <= q < j -> rkey r q < x) /\ (forall q, j <= q < zlen r -> x <= rkey r q).
Proof.
  cbn zeta. revert pos. induction fuel as [|f IH]; intros pos H Hp Hf; [lia|]. cbn [ra_advance_until_freeing].
  destruct (Z.ltb_spec pos (zlen r)); cbn [andb]; [destruct (Z.ltb_spec (rkey r pos) x)|].
  - destruct (IH (pos + 1)) as (A&B&D); auto; try lia. split; [lia|]. split; auto.
    intros q Hq. destruct (Z.eq_dec q pos); [subst; auto|]. apply B. lia.
  - split; [lia|]. split; [lia|]. intros q Hq. destruct (Z.eq_dec q pos); [subst; auto|].
    pose proof (adv_key r pos q H ltac:(lia) ltac:(lia)). lia.
  - split; [lia|]. split; lia.
Qed.
Lemma gok_zdrop_S C lo r i : gok C lo r -> 0 <= i < zlen r -> gok C (rkey r i + 1) (zdrop (i + 1) r) /\ C (rcon r i) /\ lo <= rkey r i < 65536.
Proof. intros H Hi. apply (gok_zdrop C lo i) in H. rewrite rdrop_S in H by auto. apply gok_cons in H. tauto. Qed.
Lemma gok_zdrop_ge C lo r i x : gok C lo r -> 0 <= i <= zlen r -> (forall q, i <= q < zlen r -> x <= rkey r q) -> gok C x (zdrop i r).
Proof.
  intros H Hi Hx. destruct (Z.eq_dec i (zlen r)).
  - rewrite zdrop_all by lia. apply gok_nil.
  - specialize (Hx i ltac:(lia)). pose proof (gok_zdrop C lo i r H) as G. rewrite rdrop_S in * by lia.
    apply gok_cons in G. apply gok_cons. repeat split; try tauto; try lia. all: apply G.
Qed.
