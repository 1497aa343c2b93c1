(** MixedI: src/containers/mixed_intersection.c. *)
From Coq Require Import ZArith List Bool Lia Sorted Btauto.
From Verif Require Import Base ArrayUtil BitUtil BitsetC ArrayC RunC RunD Convert.
Import ListNotations.
Open Scope Z_scope.
Local Opaque zr.

(** ** Result invariant (specification side)
    The result of an operation that may produce the empty set: like [cok], except that
    an array or run container may be empty. *)
Definition eok (c : container) : Prop :=
  match c with
  | CArr a => awf a /\ zlen a <= 4096
  | CBit b => bwf b /\ 4096 < b_card b
  | CRun r => rwf r
  end.
Definition erep (c : container) (P : Z -> bool) : Prop :=
  eok c /\ forall x, 0 <= x < 65536 -> cmem c x = P x.

(** ** Model *)
(** The tail shared by most mixed operations: a bitset whose cardinality is at most
    DEFAULT_MAX_SIZE is turned into an array (e.g. mixed_intersection.c:188-200). *)
Definition bitset_or_array (b : bset) : container :=
  if b_card b <=? 4096 then CArr (array_container_from_bitset b) else CBit b.

(** mixed_intersection.c:19-46.  The branchless store (write, then advance if the value
    is in the bitset) keeps exactly the values contained in the bitset.  In-place calls
    (dst = src_1) write at an index <= the one being read. *)
Definition array_bitset_container_intersection (a : list Z) (b : bset) : list Z :=
  filter (fun key => bitset_container_get b key) a.
(** mixed_intersection.c:49-58 *)
Definition array_bitset_container_intersection_cardinality (a : list Z) (b : bset) : Z :=
  fold_left (fun newcard key => newcard + (if bitset_container_get b key then 1 else 0)) a 0.
(** mixed_intersection.c:60-69 *)
Definition array_bitset_container_intersect (a : list Z) (b : bset) : bool :=
  existsb (fun key => bitset_container_get b key) a.
(** mixed_intersection.c:73-111 array_run_container_intersection.  The positions
    arraypos and rlepos are represented by the remaining suffixes; advanceUntil only
    inspects elements after its [pos] argument, so it is called on the suffix with
    position 0. *)
Fixpoint array_run_isect_loop (fuel : nat) (l : list Z) (rs : list run) : list Z :=
  match fuel with
  | O => []
  | S f =>
    match l, rs with
    | arrayval :: l', (v, len) :: rs' =>
      if v + len <? arrayval then array_run_isect_loop f l rs'
      else if arrayval <? v then array_run_isect_loop f (zskip (advanceUntil l 0 (zlen l) v) l) rs
      else arrayval :: array_run_isect_loop f l' rs
    | _, _ => []
    end
  end.
(** When src_2 has no runs the C code returns without writing dst->cardinality: the
    result is the previous content of dst (unreachable for stored containers, whose run
    lists are non-empty; the model returns the empty array of a freshly created dst). *)
Definition array_run_container_intersection (a : list Z) (r : list run) : list Z :=
  if run_container_is_full r then a
  else array_run_isect_loop (S (length a + length r)) a r.
(** mixed_intersection.c:117-202 run_bitset_container_intersection; the in-place and the
    copying branch compute the same words *)
Fixpoint isect_reset (ws : list Z) (start : Z) (rs : list run) : list Z :=
  match rs with
  | [] => bitset_reset_range ws start 65536
  | (v, l) :: rs' => isect_reset (bitset_reset_range ws start v) (v + l + 1) rs'
  end.
Definition run_bitset_container_intersection (r : list run) (b : bset) : container :=
  if run_container_is_full r then CBit b
  else if run_container_cardinality r <=? 4096 then
    CArr (flat_map (fun x => map u16 (filter (fun v => bitset_container_get b v) (zr (fst x) (fst x + snd x + 1)))) r)
  else
    let ws := isect_reset (b_words b) 0 r in
    bitset_or_array (bitset_container_compute_cardinality ws, ws).
(** mixed_intersection.c:205-238 *)
Fixpoint array_run_isect_card_loop (fuel : nat) (l : list Z) (rs : list run) (newcard : Z) : Z :=
  match fuel with
  | O => newcard
  | S f =>
    match l, rs with
    | arrayval :: l', (v, len) :: rs' =>
      if v + len <? arrayval then array_run_isect_card_loop f l rs' newcard
      else if arrayval <? v then array_run_isect_card_loop f (zskip (advanceUntil l 0 (zlen l) v) l) rs newcard
      else array_run_isect_card_loop f l' rs (newcard + 1)
    | _, _ => newcard
    end
  end.
Definition array_run_container_intersection_cardinality (a : list Z) (r : list run) : Z :=
  if run_container_is_full r then zlen a
  else array_run_isect_card_loop (S (length a + length r)) a r 0.
(** mixed_intersection.c:240-252 *)
Definition run_bitset_container_intersection_cardinality (r : list run) (b : bset) : Z :=
  if run_container_is_full r then b_card b
  else fold_left (fun answer x => answer + bitset_lenrange_cardinality (b_words b) (fst x) (snd x)) r 0.
(** mixed_intersection.c:254-285 *)
Fixpoint array_run_intersect_loop (fuel : nat) (l : list Z) (rs : list run) : bool :=
  match fuel with
  | O => false
  | S f =>
    match l, rs with
    | arrayval :: l', (v, len) :: rs' =>
      if v + len <? arrayval then array_run_intersect_loop f l rs'
      else if arrayval <? v then array_run_intersect_loop f (zskip (advanceUntil l 0 (zlen l) v) l) rs
      else true
    | _, _ => false
    end
  end.
Definition array_run_container_intersect (a : list Z) (r : list run) : bool :=
  if run_container_is_full r then negb (zlen a =? 0)
  else array_run_intersect_loop (S (length a + length r)) a r.
(** mixed_intersection.c:287-299 *)
Definition run_bitset_container_intersect (r : list run) (b : bset) : bool :=
  if run_container_is_full r then negb (bitset_container_empty b)
  else existsb (fun x => negb (bitset_lenrange_empty (b_words b) (fst x) (snd x))) r.
(** mixed_intersection.c:305-325; the in-place variant 327-349 computes the same value *)
Definition bitset_bitset_container_intersection (b1 b2 : bset) : container :=
  let newCardinality := bitset_container_and_justcard b1 b2 in
  if 4096 <? newCardinality then CBit (newCardinality, b_words (bitset_container_and_nocard b1 b2))
  else CArr (bitset_extract_intersection_setbits (b_words b1) (b_words b2) 0).

(** * Proofs *)
Lemma erep_ext c P Q : erep c P -> (forall x, 0 <= x < 65536 -> P x = Q x) -> erep c Q.
Proof. intros [K H] E. split; auto. intros x Hx. rewrite <- E by auto. auto. Qed.
Lemma rep_erep c P : rep c P -> erep c P.
Proof. intros [K H]. split; auto. destruct c; cbn in *; intuition lia. Qed.
Lemma eok_cwf c : eok c -> cwf c.
Proof. destruct c; cbn; tauto. Qed.
Lemma erep_wrep c P : erep c P -> wrep c P.
Proof. intros [K H]. split; auto. now apply eok_cwf. Qed.
Lemma erep_rep c P : erep c P -> (exists x, 0 <= x < 65536 /\ P x = true) -> rep c P.
Proof.
  intros [K H] [x [Hx Px]]. split; auto. rewrite <- H in Px by auto. destruct c as [a|b|r]; cbn in *.
  - split; [tauto|]. unfold amem in Px. destruct a; [discriminate|]. rewrite zlen_cons in *.
    pose proof (zlen_nonneg a). intuition lia.
  - auto.
  - split; auto. intros ->. discriminate.
Qed.
Lemma erep_card_pos c P : erep c P -> 0 < cnt P 0 65536 -> rep c P.
Proof.
  intros E H. apply erep_rep; auto.
  destruct (existsb P (zr 0 65536)) eqn:X.
  - apply existsb_exists in X. destruct X as [x [I Px]]. apply zr_In in I. eauto.
  - assert (cnt P 0 65536 = 0); [|lia]. apply cnt_none. intros x Hx.
    destruct (P x) eqn:Px; auto. assert (existsb P (zr 0 65536) = true); [|congruence].
    apply existsb_exists. exists x. rewrite zr_In. auto.
Qed.
Lemma awf_nil : awf [].
Proof. split; constructor. Qed.
Lemma awf_filter P a : awf a -> awf (filter P a).
Proof. intros [I B]. split; [now apply incr_filter|now apply inb_filter]. Qed.
Lemma amem_filter P a x : amem (filter P a) x = amem a x && P x.
Proof.
  apply zmem_bool. rewrite filter_In, andb_true_iff. unfold amem. rewrite zmem_In. tauto.
Qed.
Lemma amem_range a x : awf a -> amem a x = true -> 0 <= x < 65536.
Proof. intros [_ B] H. apply zmem_In in H. eapply inb_In in B; eauto. Qed.
Lemma erep_filter P a : awf a -> zlen a <= 4096 -> erep (CArr (filter P a)) (fun x => amem a x && P x).
Proof.
  intros W L. split; cbn [eok cmem].
  - split; [now apply awf_filter|]. pose proof (filter_len_le P a). lia.
  - intros x Hx. apply amem_filter.
Qed.
Lemma zlen_filter_cnt P a : awf a -> zlen (filter P a) = cnt (fun x => amem a x && P x) 0 65536.
Proof.
  intros W. rewrite (zlen_acard (filter P a)) by (now apply awf_filter). unfold acard.
  apply cnt_ext. intros x _. apply amem_filter.
Qed.
Lemma zlen_filter_fold (P : Z -> bool) a s :
  fold_left (fun n key => n + (if P key then 1 else 0)) a s = s + zlen (filter P a).
Proof.
  revert s. induction a as [|y a IH]; intros s; cbn [fold_left filter].
  - rewrite (@zlen_nil Z). lia.
  - rewrite IH. destruct (P y); rewrite ?zlen_cons; lia.
Qed.
Lemma existsb_filter {A} (P : A -> bool) a : existsb P a = negb (zlen (filter P a) =? 0).
Proof.
  induction a as [|y a IH]; [reflexivity|]. cbn [existsb filter]. destruct (P y); cbn [orb]; auto.
Qed.
Lemma filter_get b a : inb 0 65536 a ->
  filter (fun key => bitset_container_get b key) a = filter (bget (b_words b)) a.
Proof.
  intros B. apply filter_ext_In. intros x I. apply bitset_get_spec. eapply inb_In in B; eauto. lia.
Qed.

Lemma bitset_or_array_spec c ws P : bws ws -> c = bcard ws -> (forall x, 0 <= x < 65536 -> bget ws x = P x) ->
  erep (bitset_or_array (c, ws)) P.
Proof.
  intros W E H. unfold bitset_or_array. cbn [b_card fst]. destruct (Z.leb_spec c 4096).
  - rewrite array_from_bitset_spec by exact W. cbn [b_words snd]. split; cbn [eok cmem].
    + split; [apply awf_vals|]. rewrite zlen_vals. unfold bcard in E. lia.
    + intros x Hx. rewrite amem_vals by auto. auto.
  - split; cbn [eok cmem b_card b_words fst snd]; auto. split; [split; auto|lia].
Qed.

Lemma array_bitset_intersection_spec a b : awf a -> zlen a <= 4096 ->
  erep (CArr (array_bitset_container_intersection a b)) (fun x => amem a x && bget (b_words b) x).
Proof.
  intros W L. unfold array_bitset_container_intersection. rewrite filter_get by apply W.
  now apply erep_filter.
Qed.
Lemma array_bitset_intersection_cardinality_spec a b : awf a ->
  array_bitset_container_intersection_cardinality a b = cnt (fun x => amem a x && bget (b_words b) x) 0 65536.
Proof.
  intros W. unfold array_bitset_container_intersection_cardinality. rewrite zlen_filter_fold.
  rewrite filter_get by apply W. rewrite zlen_filter_cnt by auto. lia.
Qed.
Lemma array_bitset_intersect_spec a b : awf a ->
  array_bitset_container_intersect a b = negb (cnt (fun x => amem a x && bget (b_words b) x) 0 65536 =? 0).
Proof.
  intros W. unfold array_bitset_container_intersect. rewrite existsb_filter.
  rewrite filter_get by apply W. rewrite zlen_filter_cnt by auto. reflexivity.
Qed.

Lemma filter_filter_impl {A} (P Q : A -> bool) l : (forall x, In x l -> P x = true -> Q x = true) ->
  filter P (filter Q l) = filter P l.
Proof.
  induction l as [|x l IH]; intros H; [reflexivity|]. cbn [filter].
  destruct (Q x) eqn:Qx; cbn [filter]; destruct (P x) eqn:Px; rewrite IH by (intros; apply H; cbn; auto); auto.
  rewrite H in Qx by (cbn; auto). discriminate.
Qed.

Lemma array_run_isect_loop_spec fuel : forall l rs lo, incr l -> rok lo rs ->
  (length l + length rs < fuel)%nat -> array_run_isect_loop fuel l rs = filter (rmem rs) l.
Proof.
  induction fuel as [|f IH]; intros l rs lo I R F; [lia|].
  cbn [array_run_isect_loop]. destruct l as [|y l]; [reflexivity|].
  destruct rs as [|[v len] rs]; [now rewrite filter_none by reflexivity|].
  cbn [rok] in R. destruct R as (R1 & R2 & R3 & R4).
  assert (I' := I). apply incr_cons in I. destruct I as [I1 I2]. rewrite Forall_forall in I1.
  assert (forall z, In z (y :: l) -> y <= z) as Ge by (intros z [->|Iz]; [lia|specialize (I1 z Iz); lia]).
  destruct (Z.ltb_spec (v + len) y).
  - rewrite (IH (y :: l) rs (v + len + 2)) by (auto; cbn [length] in *; lia). apply filter_ext_In. intros z Iz. rewrite rmem_cons.
    unfold inrun. cbn [fst snd]. specialize (Ge z Iz).
    replace (z <=? v + len) with false by (symmetry; apply Z.leb_gt; lia). now rewrite andb_false_r.
  - destruct (Z.ltb_spec y v).
    + pose proof (zlen_nonneg l) as N.
      rewrite advanceUntil_lb by (solve [auto | rewrite zlen_cons; lia | intros _; rewrite znth_cons_0; lia]).
      destruct (split_lb (y :: l) v I') as [_ E].
      rewrite (IH _ ((v, len) :: rs) lo).
      * rewrite E. apply filter_filter_impl. intros z Iz M.
        apply rmem_range with (lo := v) in M; [apply Z.leb_le; lia|]. cbn [rok]. repeat split; auto; lia.
      * now apply incr_zskip.
      * cbn [rok]. auto.
      * assert (zlen (zskip (lb (y :: l) v) (y :: l)) = zlen (y :: l) - lb (y :: l) v) as Z1 by (apply zskip_zlen; apply lb_bound).
        rewrite lb_cons_lt in * by lia. pose proof (lb_bound l v) as Lb. unfold zlen in *. cbn [length] in *. lia.
    + cbn [filter]. replace (rmem ((v, len) :: rs) y) with true.
      * f_equal. apply (IH l ((v, len) :: rs) lo); auto; [cbn [rok]; auto|cbn [length] in *; lia].
      * symmetry. rewrite rmem_cons. unfold inrun. cbn [fst snd].
        replace (v <=? y) with true by (symmetry; apply Z.leb_le; lia).
        replace (y <=? v + len) with true by (symmetry; apply Z.leb_le; lia). reflexivity.
Qed.
Lemma array_run_isect_card_loop_eq fuel : forall l rs n,
  array_run_isect_card_loop fuel l rs n = n + zlen (array_run_isect_loop fuel l rs).
Proof.
  induction fuel as [|f IH]; intros l rs n; cbn [array_run_isect_card_loop array_run_isect_loop].
  - rewrite (@zlen_nil Z). lia.
  - destruct l as [|y l]; [rewrite (@zlen_nil Z); lia|]. destruct rs as [|[v len] rs]; [rewrite (@zlen_nil Z); lia|].
    destruct (v + len <? y); [apply IH|]. destruct (y <? v); [apply IH|]. rewrite IH, zlen_cons. lia.
Qed.
Lemma array_run_intersect_loop_eq fuel : forall l rs,
  array_run_intersect_loop fuel l rs = negb (zlen (array_run_isect_loop fuel l rs) =? 0).
Proof.
  induction fuel as [|f IH]; intros l rs; cbn [array_run_intersect_loop array_run_isect_loop]; [reflexivity|].
  destruct l as [|y l]; [reflexivity|]. destruct rs as [|[v len] rs]; [reflexivity|].
  destruct (v + len <? y); [apply IH|]. destruct (y <? v); [apply IH|]. rewrite zlen_cons.
  pose proof (zlen_nonneg (array_run_isect_loop f l ((v, len) :: rs))).
  destruct (Z.eqb_spec (zlen (array_run_isect_loop f l ((v, len) :: rs)) + 1) 0); auto; lia.
Qed.
Lemma array_run_isect_filter a r : awf a -> rwf r -> array_run_container_intersection a r = filter (rmem r) a.
Proof.
  intros W R. unfold array_run_container_intersection. destruct (run_container_is_full r) eqn:F.
  - rewrite filter_all; auto. intros x I. rewrite (is_full_iff r R) in F. apply F.
    eapply inb_In in I; [|apply W]. lia.
  - eapply array_run_isect_loop_spec; [apply W|apply R|lia].
Qed.
Lemma array_run_intersection_spec a r : awf a -> zlen a <= 4096 -> rwf r ->
  erep (CArr (array_run_container_intersection a r)) (fun x => amem a x && rmem r x).
Proof. intros W L R. rewrite array_run_isect_filter by auto. now apply erep_filter. Qed.
Lemma array_run_intersection_cardinality_spec a r : awf a -> rwf r ->
  array_run_container_intersection_cardinality a r = cnt (fun x => amem a x && rmem r x) 0 65536.
Proof.
  intros W R. rewrite <- zlen_filter_cnt by auto. rewrite <- array_run_isect_filter by auto.
  unfold array_run_container_intersection_cardinality, array_run_container_intersection.
  destruct (run_container_is_full r); auto. rewrite array_run_isect_card_loop_eq. lia.
Qed.
Lemma array_run_intersect_spec a r : awf a -> rwf r ->
  array_run_container_intersect a r = negb (cnt (fun x => amem a x && rmem r x) 0 65536 =? 0).
Proof.
  intros W R. rewrite <- zlen_filter_cnt by auto. rewrite <- array_run_isect_filter by auto.
  unfold array_run_container_intersect, array_run_container_intersection.
  destruct (run_container_is_full r); auto. apply array_run_intersect_loop_eq.
Qed.

Lemma bws_reset ws s e : bws ws -> bws (bitset_reset_range ws s e).
Proof. intros [W L]. split; [now apply wfw_reset_range|now rewrite zlen_reset_range]. Qed.
Lemma isect_reset_spec rs : forall ws start, bws ws -> 0 <= start <= 65536 -> rok start rs ->
  bws (isect_reset ws start rs) /\
  forall x, 0 <= x < 65536 -> bget (isect_reset ws start rs) x = bget ws x && ((x <? start) || rmem rs x).
Proof.
  induction rs as [|[v l] rs IH]; intros ws start W S R; cbn [isect_reset].
  - split; [now apply bws_reset|]. intros x Hx. destruct W as [W1 W2].
    rewrite bitset_reset_range_spec by (auto; lia). rewrite rmem_nil, orb_false_r. f_equal.
    destruct (Z.leb_spec start x), (Z.ltb_spec x 65536), (Z.ltb_spec x start); auto; lia.
  - cbn [rok] in R. destruct R as (R1 & R2 & R3 & R4).
    destruct (IH (bitset_reset_range ws start v) (v + l + 1)) as [A B].
    + now apply bws_reset.
    + lia.
    + eapply rok_weaken; [|eassumption]. lia.
    + split; auto. intros x Hx. rewrite B by auto. destruct W as [W1 W2].
      rewrite bitset_reset_range_spec by (auto; lia). rewrite rmem_cons. unfold inrun. cbn [fst snd].
      rewrite <- andb_assoc. f_equal.
      destruct (rmem rs x) eqn:M.
      * apply rmem_range with (lo := v + l + 2) in M; auto. rewrite !orb_true_r. rewrite andb_true_r.
        replace (x <? v) with false by (symmetry; apply Z.ltb_ge; lia). now rewrite andb_false_r.
      * rewrite !orb_false_r.
        destruct (Z.leb_spec start x), (Z.ltb_spec x v), (Z.ltb_spec x (v + l + 1)), (Z.ltb_spec x start),
          (Z.leb_spec v x), (Z.leb_spec x (v + l)); auto; lia.
Qed.
Lemma flat_map_filter_runs (P : Z -> bool) r : rwf r ->
  flat_map (fun x => map u16 (filter P (zr (fst x) (fst x + snd x + 1)))) r
  = vals (fun x => rmem r x && P x).
Proof.
  intros R. unfold vals.
  replace (filter (fun x => rmem r x && P x) (zr 0 65536)) with (filter P (vals (rmem r))).
  2:{ unfold vals. generalize (zr 0 65536). induction l as [|y l IH]; [reflexivity|]. cbn [filter].
      destruct (rmem r y); cbn [filter andb]; rewrite IH; auto. }
  rewrite <- array_from_run_spec by auto. unfold array_container_from_run.
  assert (forall lo, 0 <= lo -> rok lo r ->
    flat_map (fun x => map u16 (filter P (zr (fst x) (fst x + snd x + 1)))) r =
    filter P (flat_map (fun x => map u16 (zr (fst x) (fst x + snd x + 1))) r)) as G; [|now apply (G 0)].
  clear R. induction r as [|[v l] r IH]; intros lo L R; [reflexivity|].
  cbn [rok] in R. destruct R as (R1 & R2 & R3 & R4). cbn [flat_map fst snd].
  assert (forall k, inb 0 65536 k -> map u16 k = k) as U.
  { intros k B. rewrite <- (map_id k) at 2. apply map_ext_in. intros z I. apply u16_small.
    eapply inb_In in B; eauto. }
  assert (inb 0 65536 (zr v (v + l + 1))) as B by (apply awf_zr; lia).
  rewrite (U (zr v (v + l + 1))), (U (filter P _)) by (auto; now apply inb_filter).
  rewrite (filter_app P). f_equal. apply (IH (v + l + 2)); auto. lia.
Qed.
Lemma run_bitset_intersection_spec r b : rwf r -> bwf b -> 4096 < b_card b ->
  erep (run_bitset_container_intersection r b) (fun x => rmem r x && bget (b_words b) x).
Proof.
  intros R W L. unfold run_bitset_container_intersection. destruct (run_container_is_full r) eqn:F.
  - split; cbn [eok cmem]; auto. intros x Hx. rewrite (is_full_iff r R) in F. now rewrite F.
  - rewrite run_cardinality_spec by auto. destruct (Z.leb_spec (rcard r) 4096).
    + assert (flat_map (fun x => map u16 (filter (fun v => bitset_container_get b v) (zr (fst x) (fst x + snd x + 1)))) r
        = vals (fun x => rmem r x && bget (b_words b) x)) as E.
      { rewrite (flat_map_filter_runs (fun v => bitset_container_get b v)) by auto.
        unfold vals. apply filter_ext_In. intros x I. apply zr_In in I. rewrite bitset_get_spec by lia. reflexivity. }
      rewrite E. split; cbn [eok cmem].
      * split; [apply awf_vals|]. rewrite zlen_vals. unfold rcard in *.
        assert (cnt (fun x => rmem r x && bget (b_words b) x) 0 65536 <= cnt (rmem r) 0 65536); [|lia].
        apply cnt_mono. intros x _ T. now apply andb_true_iff in T.
      * intros x Hx. now rewrite amem_vals by auto.
    + destruct (isect_reset_spec r (b_words b) 0) as [A B]; [apply W|lia|apply R|].
      apply bitset_or_array_spec; auto.
      * now apply compute_cardinality_spec.
      * intros x Hx. rewrite B by auto. replace (x <? 0) with false by (symmetry; apply Z.ltb_ge; lia).
        cbn [orb]. apply andb_comm.
Qed.
Lemma run_bitset_card_aux b : bws (b_words b) -> forall r lo s, rok lo r -> 0 <= lo <= 65537 ->
  fold_left (fun answer x => answer + bitset_lenrange_cardinality (b_words b) (fst x) (snd x)) r s
  = s + cnt (fun x => rmem r x && bget (b_words b) x) lo 65536.
Proof.
  intros [W1 W2]. induction r as [|[v l] r IH]; intros lo s R L; cbn [fold_left fst snd].
  - rewrite cnt_none; [lia|]. reflexivity.
  - cbn [rok] in R. destruct R as (R1 & R2 & R3 & R4).
    rewrite (IH (v + l + 2)) by (auto; lia). rewrite bitset_lenrange_cardinality_spec by lia.
    rewrite (cnt_app (fun x => rmem ((v, l) :: r) x && bget (b_words b) x) lo v 65536) by lia.
    rewrite (cnt_app (fun x => rmem ((v, l) :: r) x && bget (b_words b) x) v (v + l + 1) 65536) by lia.
    rewrite (cnt_none (fun x => rmem ((v, l) :: r) x && bget (b_words b) x) lo v).
    2:{ intros x Hx. rewrite (rmem_lo v) by (cbn [rok]; repeat split; auto; lia). reflexivity. }
    rewrite (cnt_ext (fun x => rmem ((v, l) :: r) x && bget (b_words b) x) (bget (b_words b)) v (v + l + 1)).
    2:{ intros x Hx. rewrite rmem_cons. unfold inrun. cbn [fst snd].
        replace (v <=? x) with true by (symmetry; apply Z.leb_le; lia).
        replace (x <=? v + l) with true by (symmetry; apply Z.leb_le; lia). reflexivity. }
    rewrite (cnt_ext (fun x => rmem ((v, l) :: r) x && bget (b_words b) x) (fun x => rmem r x && bget (b_words b) x) (v + l + 1) 65536).
    2:{ intros x Hx. rewrite rmem_cons. unfold inrun. cbn [fst snd].
        replace (x <=? v + l) with false by (symmetry; apply Z.leb_gt; lia). now rewrite andb_false_r. }
    assert (cnt (fun x => rmem r x && bget (b_words b) x) (v + l + 1) 65536
      = cnt (fun x => rmem r x && bget (b_words b) x) (v + l + 2) 65536) as E.
    { destruct (Z.eq_dec (v + l + 1) 65536) as [N|N].
      - rewrite (cnt_nil _ (v + l + 1)), (cnt_nil _ (v + l + 2)) by lia. reflexivity.
      - rewrite (cnt_cons _ (v + l + 1)) by lia. rewrite (rmem_lo (v + l + 2)) by (auto; lia). cbn [andb].
        replace (v + l + 1 + 1) with (v + l + 2) by lia. lia. }
    rewrite E. lia.
Qed.
Lemma run_bitset_intersection_cardinality_spec r b : rwf r -> bwf b ->
  run_bitset_container_intersection_cardinality r b = cnt (fun x => rmem r x && bget (b_words b) x) 0 65536.
Proof.
  intros R W. unfold run_bitset_container_intersection_cardinality. destruct (run_container_is_full r) eqn:F.
  - rewrite (is_full_iff r R) in F. destruct W as [W E]. rewrite E. unfold bcard. apply cnt_ext. intros x Hx. now rewrite F.
  - rewrite (run_bitset_card_aux b (proj1 W) r 0) by (auto; lia). lia.
Qed.
Lemma run_bitset_intersect_spec r b : rwf r -> bwf b ->
  run_bitset_container_intersect r b = negb (cnt (fun x => rmem r x && bget (b_words b) x) 0 65536 =? 0).
Proof.
  intros R W. unfold run_bitset_container_intersect. destruct (run_container_is_full r) eqn:F.
  - rewrite (is_full_iff r R) in F. rewrite bitset_empty_spec by (now apply bwf_blz). unfold bcard. f_equal.
    rewrite (cnt_ext (bget (b_words b)) (fun x => rmem r x && bget (b_words b) x)); auto. intros x Hx. now rewrite F.
  - assert (forall lo s, rok lo r -> 0 <= lo -> 0 <= s ->
      negb (s =? 0) || existsb (fun x => negb (bitset_lenrange_empty (b_words b) (fst x) (snd x))) r
      = negb (fold_left (fun answer x => answer + bitset_lenrange_cardinality (b_words b) (fst x) (snd x)) r s =? 0)) as G.
    { clear F. destruct W as [[W1 W2] _]. clear R. induction r as [|[v l] r IH]; intros lo s R L S; cbn [existsb fold_left fst snd].
      - now rewrite orb_false_r.
      - cbn [rok] in R. destruct R as (R1 & R2 & R3 & R4).
        pose proof (cnt_bound (bget (b_words b)) v (v + l + 1) ltac:(lia)) as Cb.
        rewrite <- (IH (v + l + 2)) by (auto; try lia; rewrite bitset_lenrange_cardinality_spec by lia; lia).
        rewrite bitset_lenrange_cardinality_spec, bitset_lenrange_empty_spec by (auto; lia).
        rewrite orb_assoc. f_equal.
        destruct (Z.eqb_spec s 0), (Z.eqb_spec (cnt (bget (b_words b)) v (v + l + 1)) 0),
          (Z.eqb_spec (s + cnt (bget (b_words b)) v (v + l + 1)) 0); auto; lia. }
    specialize (G 0 0 R ltac:(lia) ltac:(lia)). cbn [negb orb] in G.
    change (negb (0 =? 0)) with false in G. cbn [orb] in G. rewrite G.
    rewrite (run_bitset_card_aux b (proj1 W) r 0) by (auto; lia). reflexivity.
Qed.
Lemma bitset_bitset_intersection_spec b1 b2 : bwf b1 -> bwf b2 ->
  erep (bitset_bitset_container_intersection b1 b2) (fun x => bget (b_words b1) x && bget (b_words b2) x).
Proof.
  intros [W1 _] [W2 _]. unfold bitset_bitset_container_intersection, bitset_container_and_justcard, bitset_container_and_nocard.
  rewrite (bitset_op_justcard_spec Z.land andb) by (auto; apply wordop_and).
  destruct (bitset_op_nocard_spec Z.land andb b1 b2 wordop_and W1 W2) as [B H].
  destruct B as [B _].
  assert (bcard (b_words (bitset_op_nocard Z.land b1 b2)) = cnt (fun x => bget (b_words b1) x && bget (b_words b2) x) 0 65536) as E
    by (unfold bcard; apply cnt_ext; auto).
  destruct (Z.ltb_spec 4096 (cnt (fun x => bget (b_words b1) x && bget (b_words b2) x) 0 65536)).
  - split; cbn [eok cmem b_card b_words fst snd]; [|exact H]. split; [|lia]. split; [exact B|symmetry; exact E].
  - rewrite bitset_extract_intersection_eq.
    change (map2 Z.land (b_words b1) (b_words b2)) with (b_words (bitset_op_nocard Z.land b1 b2)).
    change (bitset_extract_setbits (b_words (bitset_op_nocard Z.land b1 b2)) 0)
      with (array_container_from_bitset (bitset_op_nocard Z.land b1 b2)).
    rewrite array_from_bitset_spec by exact B. split; cbn [eok cmem].
    + split; [apply awf_vals|]. rewrite zlen_vals. unfold bcard in E. lia.
    + intros x Hx. rewrite amem_vals by auto. auto.
Qed.
