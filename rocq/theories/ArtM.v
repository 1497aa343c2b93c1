(** ArtM: the adaptive radix tree as an ordered map, under any sequence of calls. *)
From Coq Require Import ZArith List Bool Lia Sorting.Sorted.
From Verif Require Import Base.
From Verif Require Import Art ArtT ArtI ArtR SpecArt.
From Verif Require R64 R64P.
Import ListNotations.
Local Open Scope Z_scope.
Local Opaque zr n48_pairs n256_pairs.

(** ** The machine: the calls of art.h as roaring64.c makes them *)
(** reading up to [k] entries with art_iterator_next; its boolean says whether there is a value *)
Fixpoint walk (move : art -> iter -> option (iter * bool)) (k : nat) (a : art) (it : iter) : option (list (Z * Z)) :=
  match k with
  | O => Some []
  | S k =>
    if i_val it =? 0 then Some []
    else
      do v <- leaf_val a (i_val it);
      do (it1, more) <- move a it;
      if Bool.eqb more (negb (i_val it1 =? 0)) then
        do t <- walk move k a it1; Some ((key_number (i_key it), v) :: t)
      else None
  end.
(** erasing up to [k] entries with art_iterator_erase, which leaves the iterator on the next entry *)
Fixpoint walk_erase (k : nat) (a : art) (it : iter) : option (art * list (Z * Z)) :=
  match k with
  | O => Some (a, [])
  | S k =>
    if i_val it =? 0 then Some (a, [])
    else
      let key := i_key it in
      do (a1, it1, v) <- art_iterator_erase a it;
      do v <- v;
      do (a2, t) <- walk_erase k a1 it1; Some (a2, (key_number key, v) :: t)
  end.
Definition map_step (c : acmd) (a : art) : option (art * aout) :=
  match c with
  | APut n v =>
      do leaf <- art_find a (key_bytes n);
      if leaf =? 0 then do (a1, _) <- art_insert a (key_bytes n) v; Some (a1, ONone)
      else do a1 <- set_leaf_val a leaf v; Some (a1, ONone)
  | AErase n => do (a1, v) <- art_erase a (key_bytes n); Some (a1, OVal v)
  | AFind n =>
      do leaf <- art_find a (key_bytes n);
      if leaf =? 0 then Some (a, OVal None) else do v <- leaf_val a leaf; Some (a, OVal (Some v))
  | AIsEmpty => Some (a, OBool (art_is_empty a))
  | AFirst k => do it <- art_init_iterator a true; do l <- walk art_iterator_next k a it; Some (a, OEntries l)
  | ALast k => do it <- art_init_iterator a false; do l <- walk art_iterator_prev k a it; Some (a, OEntries l)
  | ALower n k => do it <- art_lower_bound a (key_bytes n); do l <- walk art_iterator_next k a it; Some (a, OEntries l)
  | AUpper n k => do it <- art_upper_bound a (key_bytes n); do l <- walk art_iterator_next k a it; Some (a, OEntries l)
  | AInsertHere n v k =>
      do leaf <- art_find a (key_bytes n);
      if leaf =? 0 then
        do it <- art_init_iterator a true;
        do (a1, it1) <- art_iterator_insert a it (key_bytes n) v;
        do l <- walk art_iterator_next k a1 it1; Some (a1, OEntries l)
      else do w <- leaf_val a leaf; Some (a, OVal (Some w))
  | AEraseFrom n k => do it <- art_lower_bound a (key_bytes n); do (a1, l) <- walk_erase k a it; Some (a1, OEntries l)
  end.
Fixpoint map_run (cs : list acmd) (a : art) : option (art * list aout) :=
  match cs with
  | [] => Some (a, [])
  | c :: cs => do (a1, o) <- map_step c a; do (a2, os) <- map_run cs a1; Some (a2, o :: os)
  end.

(** ** Keys *)
Lemma key_bytes_high n : key_bytes n = R64.high48 (n * 65536).
Proof. unfold key_bytes, R64.high48. now rewrite Z.div_mul by lia. Qed.
Lemma key_bytes_ok n : knum n -> key6 (key_bytes n) /\ kv (key_bytes n) = n.
Proof. intros N. rewrite key_bytes_high. now apply R64P.high48_of. Qed.
Lemma key_number_kv k : key_number k = kv k.
Proof. unfold key_number, kv. generalize 0. induction k as [|b k IH]; intros acc; cbn; auto. Qed.
Lemma key_bytes_of k : key6 k -> knum (kv k) /\ key_bytes (kv k) = k.
Proof.
  intros (L & B). pose proof (kv_range k B) as R. rewrite L in R. change (256 ^ 6) with (2^48) in R. split; [exact R|].
  destruct (key_bytes_ok (kv k) R) as (K & E). apply R64P.key6_inj; auto. split; auto.
Qed.

(** ** What a tree maps *)
Definition strip (fl : list entry) : list (Z * Z) := map (fun e => (ik e, snd (snd e))) fl.
Definition maps (fl : list entry) (m : kmap) : Prop := forall n v, knum n -> (m n = Some v <-> In (n, v) (strip fl)).
Definition mrep (a : art) (m : kmap) : Prop := exists fl, arep a fl /\ maps fl m.

Lemma strip_app l r : strip (l ++ r) = strip l ++ strip r.
Proof. apply map_app. Qed.
Lemma strip_in fl n v : In (n, v) (strip fl) <-> exists k lf, In (k, (lf, v)) fl /\ kv k = n.
Proof.
  unfold strip. rewrite in_map_iff. split.
  - intros ((k & lf & w) & E & I). cbn in E. injection E as <- <-. eauto.
  - intros (k & lf & I & <-). exists (k, (lf, v)). auto.
Qed.
Lemma strip_knum a fl n v : arep a fl -> In (n, v) (strip fl) -> knum n.
Proof. intros A I. apply strip_in in I as (k & lf & I & <-). apply key_bytes_of. eapply arep_keys; eauto. Qed.
Lemma strip_keys fl : map fst (strip fl) = map ik fl.
Proof. unfold strip. rewrite map_map. reflexivity. Qed.
Lemma strip_sorted a fl : arep a fl -> incr (map fst (strip fl)).
Proof. intros A. rewrite strip_keys. eapply arep_sorted; eauto. Qed.
Lemma incr_unique (l : list (Z * Z)) n v w : incr (map fst l) -> In (n, v) l -> In (n, w) l -> v = w.
Proof.
  induction l as [|(x, y) l IH]; [intros _ []|]. cbn [map fst]. rewrite incr_cons. intros (F & S) [E|I] [E'|I'].
  - congruence.
  - injection E as -> ->. rewrite Forall_forall in F. assert (In n (map fst l)) as X by (apply in_map_iff; exists (n, w); auto). apply F in X. lia.
  - injection E' as -> ->. rewrite Forall_forall in F. assert (In n (map fst l)) as X by (apply in_map_iff; exists (n, v); auto). apply F in X. lia.
  - eauto.
Qed.
Lemma maps_none fl m n : maps fl m -> knum n -> (m n = None <-> ~ exists v, In (n, v) (strip fl)).
Proof.
  intros M N. split.
  - intros E (v & I). apply (M n v N) in I. congruence.
  - intros H. destruct (m n) as [v|] eqn:E; auto. exfalso. apply H. exists v. now apply (M n v N).
Qed.
(** a lookup against the list of entries *)
Lemma fresh_key a fl n : arep a fl -> knum n -> (~ In (key_bytes n) (map fst fl) <-> ~ exists v, In (n, v) (strip fl)).
Proof.
  intros A N. destruct (key_bytes_ok n N) as (K & E). split; intros H X; apply H.
  - destruct X as (v & I). apply strip_in in I as (k & lf & I & EK). apply in_map_iff. exists (k, (lf, v)). split; auto. cbn.
    apply R64P.key6_inj; auto; [eapply arep_keys; eauto|]. now rewrite E.
  - apply in_map_iff in X as ((k & lf & v) & E1 & I). cbn in E1. subst k. exists v. apply strip_in. exists (key_bytes n), lf. auto.
Qed.
Lemma present_key a fl n v : arep a fl -> knum n -> In (n, v) (strip fl) -> exists l lf r, fl = l ++ (key_bytes n, (lf, v)) :: r.
Proof.
  intros A N I. apply strip_in in I as (k & lf & I & EK). destruct (key_bytes_ok n N) as (K & E).
  assert (k = key_bytes n) as -> by (apply R64P.key6_inj; auto; [eapply arep_keys; eauto|congruence]).
  apply in_split in I as (l & r & ->). eauto.
Qed.
Lemma find_cases a fl m n : arep a fl -> maps fl m -> knum n -> exists leaf, art_find a (key_bytes n) = Some leaf /\
  ((leaf = 0 /\ m n = None /\ ~ In (key_bytes n) (map fst fl)) \/
   (leaf <> 0 /\ exists v l r, m n = Some v /\ leaf_val a leaf = Some v /\ fl = l ++ (key_bytes n, (leaf, v)) :: r)).
Proof.
  intros A M N. destruct (key_bytes_ok n N) as (K & E). destruct (arep_find a fl _ A K) as (leaf & EF & F). exists leaf. split; [exact EF|].
  destruct F as [(v & I)|(-> & NI)].
  - right. split; [eapply arep_leaf; eauto|]. pose proof (arep_leaf_val _ _ _ _ _ A I) as LV. apply in_split in I as (l & r & ->). exists v, l, r. split; auto.
    apply (M n v N). apply strip_in. exists (key_bytes n), leaf. split; [apply in_elt|auto].
  - left. split; auto. split; auto. apply (maps_none _ _ _ M N). now apply (fresh_key a).
Qed.

(** ** Walks *)
Lemma walk_next k : forall a it l r, arep a (l ++ r) -> ipos any a it l r -> walk art_iterator_next k a it = Some (firstn k (strip r)).
Proof.
  induction k as [|k IH]; intros a it l r A P; [reflexivity|]. cbn [walk]. destruct r as [|(ke, (lf, v)) r].
  - rewrite (ipos_end _ _ _ _ P). reflexivity.
  - destruct (ipos_val _ _ _ _ _ _ _ _ P) as (E1 & E2 & NZ). rewrite E1. replace (lf =? 0) with false by lia.
    rewrite (arep_leaf_val a _ ke lf v A (in_elt _ _ _)). cbn [obind].
    destruct (ipos_next any a it l (ke, (lf, v)) r Logic.I P) as (it1 & E3 & P1). rewrite E3. cbn [obind].
    assert (some r = negb (i_val it1 =? 0)) as ->.
    { destruct r as [|(k2, (lf2, v2)) r]; [rewrite (ipos_end _ _ _ _ P1); reflexivity|]. destruct (ipos_val _ _ _ _ _ _ _ _ P1) as (-> & _ & N2). cbn. lia. }
    rewrite Bool.eqb_reflx. rewrite (IH a it1 (l ++ [(ke, (lf, v))]) r); [|rewrite <- app_assoc; exact A|exact P1]. cbn [obind]. rewrite E2, key_number_kv. reflexivity.
Qed.
Lemma walk_prev k : forall a it l e r, arep a (l ++ e :: r) -> ipos any a it l (e :: r) -> walk art_iterator_prev k a it = Some (firstn k (rev (strip (l ++ [e])))).
Proof.
  induction k as [|k IH]; intros a it l e r A P; [reflexivity|]. cbn [walk]. destruct e as (ke, (lf, v)).
  destruct (ipos_val _ _ _ _ _ _ _ _ P) as (E1 & E2 & NZ). rewrite E1. replace (lf =? 0) with false by lia.
  rewrite (arep_leaf_val a _ ke lf v A (in_elt _ _ _)). cbn [obind].
  rewrite strip_app, rev_app_distr. cbn [strip map rev app firstn ik fst snd]. rewrite E2, key_number_kv.
  destruct (ipos_prev any a it l (ke, (lf, v)) r Logic.I P) as (it1 & [(-> & E3 & EN)|(l0 & e0 & -> & E3 & P1)]); rewrite E3; cbn [obind].
  - destruct EN as (EN & _). rewrite EN. cbn [Z.eqb negb Bool.eqb]. destruct k; cbn [walk]; [reflexivity|]. rewrite EN. reflexivity.
  - assert (negb (i_val it1 =? 0) = true) as -> by (destruct e0 as (k2, (lf2, v2)); destruct (ipos_val _ _ _ _ _ _ _ _ P1) as (-> & _ & N2); lia).
    cbn [Bool.eqb]. rewrite <- app_assoc in A. rewrite (IH a it1 l0 e0 _ A P1). reflexivity.
Qed.
Lemma walk_erase_ok k : forall a it l r, arep a (l ++ r) -> ipos any a it l r -> exists a1, walk_erase k a it = Some (a1, firstn k (strip r)) /\ arep a1 (l ++ skipn k r).
Proof.
  induction k as [|k IH]; intros a it l r A P. { exists a. split; auto. }
  cbn [walk_erase]. destruct r as [|(ke, (lf, v)) r].
  - rewrite (ipos_end _ _ _ _ P). exists a. auto.
  - destruct (ipos_val _ _ _ _ _ _ _ _ P) as (E1 & E2 & NZ). rewrite E1. replace (lf =? 0) with false by lia.
    destruct (arep_iterator_erase any a it l ke lf v r A P) as (a1 & it1 & E3 & A1 & P1). rewrite E3. cbn [obind].
    destruct (IH a1 it1 l r A1 P1) as (a2 & E4 & A2). rewrite E4. cbn [obind]. exists a2. rewrite E2, key_number_kv. split; [reflexivity|exact A2].
Qed.

(** ** The windows of the sorted list of entries *)
Lemma In_firstn {A} (x : A) k l : In x (firstn k l) -> In x l.
Proof. intros H. rewrite <- (firstn_skipn k l). apply in_or_app. auto. Qed.
Lemma incr_SS l : incr l <-> StronglySorted Z.lt l.
Proof.
  induction l as [|a l IH]. { split; intros _; [constructor|exact Logic.I]. }
  rewrite incr_cons, IH. split.
  - intros [A B]. constructor; auto.
  - intros A. inversion A. auto.
Qed.
Lemma SS_firstn (R : Z -> Z -> Prop) k : forall l, StronglySorted R l -> StronglySorted R (firstn k l).
Proof.
  induction k as [|k IH]; intros l S; [constructor|]. destruct l as [|a l]; [constructor|]. inversion S; subst. cbn. constructor; auto.
  rewrite Forall_forall in *. intros x X. apply In_firstn in X. auto.
Qed.
Lemma SS_cross (R : Z -> Z -> Prop) l r x y : StronglySorted R (l ++ r) -> In x l -> In y r -> R x y.
Proof.
  induction l as [|a l IH]; [intros _ []|]. cbn. intros S I Y. inversion S; subst. destruct I as [->|I]; auto.
  rewrite Forall_forall in H2. apply H2. apply in_or_app. auto.
Qed.
Lemma SS_rev l : StronglySorted Z.lt l -> StronglySorted Z.gt (rev l).
Proof.
  assert (forall l a, StronglySorted Z.gt l -> (forall x, In x l -> a < x) -> StronglySorted Z.gt (l ++ [a])) as SN.
  { clear l. induction l as [|b l IH]; intros a S H; cbn; [repeat constructor|]. inversion S; subst. constructor.
    - apply IH; auto. intros x X. apply H. right. auto.
    - apply Forall_app. split; auto. constructor; auto. specialize (H b (or_introl eq_refl)). lia. }
  induction l as [|a l IH]; intros S; [constructor|]. inversion S; subst. cbn. apply SN; auto. intros x X. apply in_rev in X. rewrite Forall_forall in H2. auto.
Qed.
Lemma first_of_window a l r m Q k : arep a (l ++ r) -> maps (l ++ r) m -> (forall n v, In (n, v) (strip l) -> ~ Q n) -> (forall n v, In (n, v) (strip r) -> Q n) ->
  first_of m Q k (firstn k (strip r)).
Proof.
  intros A M NL YR. pose proof (strip_sorted _ _ A) as SO. rewrite strip_app, map_app in SO. apply incr_SS in SO.
  assert (StronglySorted Z.lt (map fst (strip r))) as SR.
  { clear -SO. induction (map fst (strip l)) as [|x t IH]; auto. inversion SO; auto. }
  split; [rewrite <- firstn_map; now apply SS_firstn|]. split; [apply firstn_le_length|]. split.
  - intros n v I. apply In_firstn in I. assert (In (n, v) (strip (l ++ r))) as I2 by (rewrite strip_app; apply in_or_app; auto).
    pose proof (strip_knum _ _ _ _ A I2). split; auto. split; [eauto|]. now apply M.
  - intros n v N q E NI. apply (M n v N) in E. rewrite strip_app in E. apply in_app_or in E as [E|E]; [exfalso; eapply NL; eauto|].
    rewrite <- (firstn_skipn k (strip r)) in E. apply in_app_or in E as [E|E]; [contradiction|]. split.
    + rewrite firstn_length. destruct (Nat.le_gt_cases k (length (strip r))) as [L|L]; [lia|]. rewrite skipn_all2 in E by lia. destruct E.
    + intros e Ie. rewrite <- (firstn_skipn k (strip r)), map_app in SR. eapply SS_cross in SR; [exact SR| |].
      * apply in_map. exact Ie.
      * apply in_map_iff. exists (n, v). auto.
Qed.
Lemma last_of_window a fl m k : arep a fl -> maps fl m -> last_of m k (firstn k (rev (strip fl))).
Proof.
  intros A M. pose proof (strip_sorted _ _ A) as SO. apply incr_SS, SS_rev in SO. rewrite <- map_rev in SO.
  split; [rewrite <- firstn_map; now apply SS_firstn|]. split; [apply firstn_le_length|]. split.
  - intros n v I. apply In_firstn, in_rev in I. pose proof (strip_knum _ _ _ _ A I). split; auto. now apply M.
  - intros n v N E NI. apply (M n v N) in E. apply in_rev in E. rewrite <- (firstn_skipn k) in E. apply in_app_or in E as [E|E]; [contradiction|]. split.
    + rewrite firstn_length. destruct (Nat.le_gt_cases k (length (rev (strip fl)))) as [L|L]; [lia|]. rewrite skipn_all2 in E by lia. destruct E.
    + intros e Ie. rewrite <- (firstn_skipn k (rev (strip fl))), map_app in SO. eapply SS_cross in SO; [apply Z.gt_lt; exact SO| |].
      * apply in_map. exact Ie.
      * apply in_map_iff. exists (n, v). auto.
Qed.

(** ** Each call *)
Lemma maps_insert fl l r m n lf v : fl = l ++ r -> maps fl m -> knum n -> m n = None -> maps (l ++ (key_bytes n, (lf, v)) :: r) (kput m n v).
Proof.
  intros -> M N E x w X. unfold kput. rewrite strip_app in *. cbn [strip map fst snd]. unfold ik at 1. cbn [fst snd]. destruct (key_bytes_ok n N) as (_ & ->).
  fold (strip r). rewrite in_app_iff. cbn [In]. specialize (M x w X). rewrite strip_app, in_app_iff in M. destruct (Z.eqb_spec x n) as [->|NE].
  - split.
    + intros H. injection H as ->. auto.
    + intros [H|[H|H]]; [exfalso|injection H as ->; auto|exfalso]; rewrite E in M; assert (None = Some w) as Y by (apply M; auto); discriminate Y.
  - rewrite M. split; [tauto|]. intros [H|[H|H]]; auto. congruence.
Qed.
Lemma maps_set a l r m n lf lf' v v' : arep a (l ++ (key_bytes n, (lf, v)) :: r) -> maps (l ++ (key_bytes n, (lf, v)) :: r) m -> knum n ->
  maps (l ++ (key_bytes n, (lf', v')) :: r) (kput m n v').
Proof.
  intros A M N x w X. pose proof (strip_sorted _ _ A) as SO. destruct (key_bytes_ok n N) as (_ & EK). unfold kput. specialize (M x w X). rewrite strip_app in *. cbn [strip map] in *. unfold ik at 1. unfold ik in M at 1. unfold ik in SO at 1. cbn [fst snd] in *. rewrite EK in *. fold (strip r) in *.
  rewrite in_app_iff in *. cbn [In] in *. destruct (Z.eqb_spec x n) as [->|NE].
  - assert (forall y, ~ In (n, y) (strip l) /\ ~ In (n, y) (strip r)) as NI.
    { rewrite map_app in SO. cbn [map fst] in SO. apply incr_SS in SO. intros y. split; intros I.
      - assert (n < n) as Y by (eapply SS_cross in SO; [exact SO|apply in_map_iff; exists (n, y); auto|left; reflexivity]). lia.
      - assert (StronglySorted Z.lt (n :: map fst (strip r))) as S2. { clear -SO. induction (map fst (strip l)) as [|z t IH]; auto. inversion SO; auto. }
        inversion S2; subst. rewrite Forall_forall in H2. assert (n < n) as Y by (apply H2; apply in_map_iff; exists (n, y); auto). lia. }
    split.
    + intros H. injection H as ->. auto.
    + intros [H|[H|H]]; [destruct (NI w); tauto|injection H as ->; auto|destruct (NI w); tauto].
  - rewrite M. split; intros [H|[H|H]]; auto; congruence.
Qed.
Lemma maps_drop a l r m n lf v : arep a (l ++ (key_bytes n, (lf, v)) :: r) -> maps (l ++ (key_bytes n, (lf, v)) :: r) m -> knum n -> maps (l ++ r) (kdrop m n).
Proof.
  intros A M N x w X. pose proof (strip_sorted _ _ A) as SO. destruct (key_bytes_ok n N) as (_ & EK). unfold kdrop. specialize (M x w X). rewrite strip_app in *. cbn [strip map] in *. unfold ik in M at 1. unfold ik in SO at 1. cbn [fst snd] in *. rewrite EK in *. fold (strip r) in *.
  rewrite in_app_iff in *. cbn [In] in *. destruct (Z.eqb_spec x n) as [->|NE].
  - split; [discriminate|]. rewrite map_app in SO. cbn [map fst] in SO. apply incr_SS in SO. intros [I|I]; exfalso.
    + assert (n < n) as Y by (eapply SS_cross in SO; [exact SO|apply in_map_iff; exists (n, w); auto|left; reflexivity]). lia.
    + assert (StronglySorted Z.lt (n :: map fst (strip r))) as S2. { clear -SO. induction (map fst (strip l)) as [|z t IH]; auto. inversion SO; auto. }
      inversion S2; subst. rewrite Forall_forall in H2. assert (n < n) as Y by (apply H2; apply in_map_iff; exists (n, w); auto). lia.
  - rewrite M. split; [|tauto]. intros [H|[H|H]]; auto. congruence.
Qed.
Lemma kput_same m n v : m n = Some v -> forall x, kput m n v x = m x.
Proof. intros E x. unfold kput. destruct (Z.eqb_spec x n); congruence. Qed.

Lemma map_step_ok c a m : mrep a m -> acmd_ok c -> exists a1 o m1, map_step c a = Some (a1, o) /\ astep c m m1 o /\ mrep a1 m1.
Proof.
  intros (fl & A & M) OK. assert (R : mrep a m) by (exists fl; auto). destruct c; cbn [acmd_ok] in OK; cbn [map_step astep].
  - destruct (find_cases a fl m n A M OK) as (leaf & -> & [(-> & E & NI)|(NZ & w & l & r & E & LV & ->)]); cbn [obind].
    + destruct (key_bytes_ok n OK) as (K & _). destruct (arep_insert a fl (key_bytes n) v A K NI) as (a1 & lf & l & r & -> & EF & A1). cbn [Z.eqb obind].
      exists a1, ONone, (kput m n v). split; auto. split; auto. exists (l ++ (key_bytes n, (lf, v)) :: r). split; auto. eapply maps_insert; eauto.
    + replace (leaf =? 0) with false by lia. destruct (arep_set a l (key_bytes n) leaf w r v A) as (a1 & -> & A1). cbn [obind].
      exists a1, ONone, (kput m n v). split; auto. split; auto. eexists. split; [exact A1|]. exact (maps_set a l r m n leaf leaf w v A M OK).
  - destruct (m n) as [v|] eqn:E.
    + pose proof (proj1 (M n v OK) E) as I. destruct (present_key a fl n v A OK I) as (l & lf & r & ->).
      destruct (arep_erase a l (key_bytes n) lf v r A) as (a1 & -> & A1). cbn [obind]. exists a1, (OVal (Some v)), (kdrop m n). split; auto. split; auto.
      eexists. split; [exact A1|]. exact (maps_drop a l r m n lf v A M OK).
    + destruct (key_bytes_ok n OK) as (K & _). rewrite (arep_erase_miss a fl (key_bytes n) A K). 2:{ apply (fresh_key a fl n A OK). now apply (maps_none fl m n M OK). }
      cbn [obind]. exists a, (OVal None), m. split; auto. split; auto. split; auto. intros x X. unfold kdrop. destruct (Z.eqb_spec x n); congruence.
  - destruct (find_cases a fl m n A M OK) as (leaf & -> & [(-> & E & NI)|(NZ & w & l & r & E & LV & ->)]); cbn [obind].
    + cbn [Z.eqb]. exists a, (OVal None), m. split; auto. split; auto. split; auto. congruence.
    + replace (leaf =? 0) with false by lia. rewrite LV. cbn [obind]. exists a, (OVal (Some w)), m. split; auto. split; auto. split; auto. congruence.
  - exists a, (OBool (art_is_empty a)), m. split; auto. split; auto. split; auto. eexists. split; [reflexivity|]. rewrite (arep_empty _ _ A). destruct fl as [|(k, (lf, v)) fl]; cbn [some negb].
    + split; auto. intros _ x X. apply (maps_none [] m x M X). intros (v & []).
    + split; [discriminate|]. intros H. exfalso. assert (In (ik (k, (lf, v)), v) (strip ((k, (lf, v)) :: fl))) as I by (left; reflexivity).
      pose proof (strip_knum _ _ _ _ A I) as X. apply (M _ _ X) in I. rewrite (H _ X) in I. discriminate.
  - destruct (arep_first a fl A) as (it & -> & P). cbn [obind]. apply ipos_any in P. rewrite (walk_next k a it [] fl A P). cbn [obind].
    eexists a, _, m. split; [reflexivity|]. split; auto. split; auto. eexists. split; [reflexivity|]. apply (first_of_window a [] fl); auto.
  - destruct (arep_last a fl A) as (it & -> & [(-> & P)|(l & e & -> & P)]); cbn [obind].
    + assert (walk art_iterator_prev k a it = Some []) as ->. { apply ipos_end in P. destruct k; cbn [walk]; [reflexivity|]. rewrite P. reflexivity. }
      cbn [obind]. eexists a, _, m. split; [reflexivity|]. split; auto. split; auto. eexists. split; [reflexivity|]. pose proof (last_of_window a [] m k A M) as W. cbn [strip map rev] in W. now rewrite firstn_nil in W.
    + apply ipos_any in P. rewrite (walk_prev k a it l e [] A P). cbn [obind]. eexists a, _, m. split; [reflexivity|]. split; auto. split; auto. eexists. split; [reflexivity|]. now apply (last_of_window a).
  - destruct (key_bytes_ok n OK) as (K & EK). destruct (arep_lower_bound a fl (key_bytes n) A K) as (it & l & r & -> & -> & P & (L1 & L2)). cbn [obind]. rewrite EK in *.
    rewrite (walk_next k a it l r A P). cbn [obind]. eexists a, _, m. split; [reflexivity|]. split; auto. split; auto. eexists. split; [reflexivity|]. apply (first_of_window a l r); auto.
    + intros x v I. apply in_map_iff in I as (e & Ee & I). injection Ee as <- _. specialize (L1 e I). lia.
    + intros x v I. apply in_map_iff in I as (e & Ee & I). injection Ee as <- _. now apply L2.
  - destruct (key_bytes_ok n OK) as (K & EK). destruct (arep_upper_bound a fl (key_bytes n) A K) as (it & l & r & -> & -> & P & L1 & L2). cbn [obind]. rewrite EK in *.
    rewrite (walk_next k a it l r A P). cbn [obind]. eexists a, _, m. split; [reflexivity|]. split; auto. split; auto. eexists. split; [reflexivity|]. apply (first_of_window a l r); auto.
    + intros x v I. apply in_map_iff in I as (e & Ee & I). injection Ee as <- _. specialize (L1 e I). lia.
    + intros x v I. apply in_map_iff in I as (e & Ee & I). injection Ee as <- _. now apply L2.
  - destruct (find_cases a fl m n A M OK) as (leaf & -> & [(-> & E & NI)|(NZ & w & l & r & E & LV & ->)]); cbn [obind]; rewrite E.
    + cbn [Z.eqb]. destruct (arep_first a fl A) as (it & -> & P0). cbn [obind]. destruct (key_bytes_ok n OK) as (K & EK).
      destruct (arep_iterator_insert any a fl it (key_bytes n) v A K NI) as (a1 & it1 & lf & l & r & -> & EF & A1 & P). cbn [obind].
      rewrite (walk_next k a1 it1 l ((key_bytes n, (lf, v)) :: r) A1 P). cbn [obind]. pose proof (maps_insert fl l r m n lf v EF M OK E) as M1.
      eexists a1, _, (kput m n v). split; [reflexivity|]. split; [|eexists; split; [exact A1|exact M1]]. split; auto. eexists. split; [reflexivity|].
      pose proof (strip_sorted _ _ A1) as SO. rewrite strip_app, map_app in SO. change (map fst (strip ((key_bytes n, (lf, v)) :: r))) with (kv (key_bytes n) :: map fst (strip r)) in SO. rewrite EK in SO. apply incr_SS in SO.
      apply (first_of_window a1 l ((key_bytes n, (lf, v)) :: r)); auto.
      * intros x y I. assert (x < n) as Y by (eapply SS_cross in SO; [exact SO|apply in_map_iff; exists (x, y); auto|left; reflexivity]). lia.
      * intros x y [I|I]; [unfold ik in I; cbn [fst snd] in I; rewrite EK in I; injection I as <- _; lia|].
        assert (StronglySorted Z.lt (n :: map fst (strip r))) as S2. { clear -SO. induction (map fst (strip l)) as [|z t IH]; auto. inversion SO; auto. }
        inversion S2; subst. rewrite Forall_forall in H2. assert (n < x) as Y by (apply H2; apply in_map_iff; exists (x, y); auto). lia.
    + replace (leaf =? 0) with false by lia. rewrite LV. cbn [obind]. exists a, (OVal (Some w)), m. split; auto.
  - destruct (key_bytes_ok n OK) as (K & EK). destruct (arep_lower_bound a fl (key_bytes n) A K) as (it & l & r & -> & -> & P & (L1 & L2)). cbn [obind]. rewrite EK in *.
    destruct (walk_erase_ok k a it l r A P) as (a1 & -> & A1). cbn [obind].
    exists a1, (OEntries (firstn k (strip r))), (fun x => if existsb (fun e => fst e =? x) (firstn k (strip r)) then None else m x). split; [reflexivity|]. split.
    + eexists. split; [reflexivity|]. split; auto. apply (first_of_window a l r); auto.
      * intros x v I. apply in_map_iff in I as (e & Ee & I). injection Ee as <- _. specialize (L1 e I). lia.
      * intros x v I. apply in_map_iff in I as (e & Ee & I). injection Ee as <- _. now apply L2.
    + exists (l ++ skipn k r). split; auto. intros x w X. pose proof (strip_sorted _ _ A) as SO. rewrite <- (firstn_skipn k r) in M, SO. specialize (M x w X).
      replace (firstn k (strip r)) with (strip (firstn k r)) by (unfold strip; symmetry; apply firstn_map).
      rewrite !strip_app in *. rewrite !map_app in SO. apply incr_SS in SO. rewrite !in_app_iff in *.
      destruct (existsb (fun e => fst e =? x) (strip (firstn k r))) eqn:EX.
      * split; [discriminate|]. apply existsb_exists in EX as ((x', w') & I & E). cbn in E. assert (x' = x) by lia. subst x'. intros [H|H]; exfalso.
        -- assert (x < x) as Y by (eapply SS_cross in SO; [exact SO|apply in_map_iff; exists (x, w); auto|apply in_or_app; left; apply in_map_iff; exists (x, w'); auto]). lia.
        -- rewrite app_assoc in SO. assert (x < x) as Y by (eapply SS_cross in SO; [exact SO|apply in_or_app; right; apply in_map_iff; exists (x, w'); auto|apply in_map_iff; exists (x, w); auto]). lia.
      * rewrite M. split; [|tauto]. intros [H|[H|H]]; auto. exfalso. apply not_true_iff_false in EX. apply EX. apply existsb_exists. exists (x, w). split; auto. cbn. lia.
Qed.

Lemma mrep_empty : mrep art_init_cleared kempty.
Proof. exists []. split; [apply arep_cleared|]. intros n v _. cbn. split; [discriminate|intros []]. Qed.
Theorem map_run_ok cs : forall a m, mrep a m -> Forall acmd_ok cs -> exists a1 outs m1, map_run cs a = Some (a1, outs) /\ arun cs m m1 outs /\ mrep a1 m1.
Proof.
  induction cs as [|c cs IH]; intros a m R OK.
  - exists a, [], m. split; auto. split; [cbn; auto|auto].
  - inversion OK; subst. destruct (map_step_ok c a m R H1) as (a1 & o & m1 & E & S & R1). destruct (IH a1 m1 R1 H2) as (a2 & os & m2 & E2 & S2 & R2).
    exists a2, (o :: os), m2. cbn [map_run]. rewrite E. cbn [obind]. rewrite E2. split; [reflexivity|]. split; [|exact R2]. cbn. eauto.
Qed.
Theorem map_run_from_empty cs : Forall acmd_ok cs -> exists a outs m, map_run cs art_init_cleared = Some (a, outs) /\ arun cs kempty m outs.
Proof. intros OK. destruct (map_run_ok cs _ _ mrep_empty OK) as (a & o & m & E & S & _). eauto. Qed.
