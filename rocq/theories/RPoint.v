(** RPoint: roaring.c point updates and queries, bulk insertion/removal and
    construction from values (src/roaring.c:39-232, 527-690, 2829-2848). *)
From Verif Require Import Base ArrayUtil BitUtil BitsetC ArrayC RunC RunD Convert MixedI MixedU MixedA MixedN Containers RArray RBinary.
Local Opaque zr.

(** the typecode of a container; the code compares the pointers before and after
    container_add/container_remove, which differ exactly when a container of
    another type had to be allocated (containers.h:477-548) *)
Definition ctype (c : container) : Z := match c with CBit _ => 1 | CArr _ => 2 | CRun _ => 3 end.

(** ** Code *)
(** roaring.c:533-559 roaring_bitmap_add *)
Definition roaring_bitmap_add (r : bitmap) (val : Z) : bitmap :=
  let hb := Z.shiftr val 16 in
  let i := ra_get_index r hb in
  if 0 <=? i then ra_set_container_at_index r i (container_add (rcon r i) (Z.land val 65535))
  else ra_insert_new_key_value_at r (- i - 1) hb (container_add (CArr []) (Z.land val 65535)).
(** roaring.c:561-599 roaring_bitmap_add_checked *)
Definition roaring_bitmap_add_checked (r : bitmap) (val : Z) : bitmap * bool :=
  let hb := Z.shiftr val 16 in
  let i := ra_get_index r hb in
  if 0 <=? i then
    let c := rcon r i in
    let oldCardinality := container_get_cardinality c in
    let c2 := container_add c (Z.land val 65535) in
    (ra_set_container_at_index r i c2,
     if negb (ctype c2 =? ctype c) then true else negb (oldCardinality =? container_get_cardinality c2))
  else (ra_insert_new_key_value_at r (- i - 1) hb (container_add (CArr []) (Z.land val 65535)), true).
(** roaring.c:601-624 roaring_bitmap_remove *)
Definition roaring_bitmap_remove (r : bitmap) (val : Z) : bitmap :=
  let hb := Z.shiftr val 16 in
  let i := ra_get_index r hb in
  if 0 <=? i then
    let c2 := container_remove (rcon r i) (Z.land val 65535) in
    if container_nonzero_cardinality c2 then ra_set_container_at_index r i c2 else ra_remove_at_index r i
  else r.
(** roaring.c:626-661 roaring_bitmap_remove_checked *)
Definition roaring_bitmap_remove_checked (r : bitmap) (val : Z) : bitmap * bool :=
  let hb := Z.shiftr val 16 in
  let i := ra_get_index r hb in
  if 0 <=? i then
    let c := rcon r i in
    let oldCardinality := container_get_cardinality c in
    let c2 := container_remove c (Z.land val 65535) in
    let newCardinality := container_get_cardinality c2 in
    (if negb (newCardinality =? 0) then ra_set_container_at_index r i c2 else ra_remove_at_index r i,
     negb (oldCardinality =? newCardinality))
  else (r, false).
(** roaring.c:2829-2844 roaring_bitmap_contains *)
Definition roaring_bitmap_contains (r : bitmap) (val : Z) : bool :=
  let hb := Z.shiftr val 16 in
  let i := ra_get_index r hb in
  if i <? 0 then false else container_contains (rcon r i) (Z.land val 65535).

(** roaring_bulk_context_t (roaring.h:243-248): [None] is the zero-initialised
    context; [Some (key, idx)] caches a key and its index.  The cached container
    pointer is the container stored at [idx] (copy-on-write apart, see Cow.v). *)
Definition bulk_context := option (Z * Z).
(** roaring.c:51-81 containerptr_roaring_bitmap_add: the new bitmap and the index *)
Definition containerptr_roaring_bitmap_add (r : bitmap) (val : Z) : bitmap * Z :=
  let hb := Z.shiftr val 16 in
  let i := ra_get_index r hb in
  if 0 <=? i then (ra_set_container_at_index r i (container_add (rcon r i) (Z.land val 65535)), i)
  else (ra_insert_new_key_value_at r (- i - 1) hb (container_add (CArr []) (Z.land val 65535)), - i - 1).
(** roaring.c:102-130 add_bulk_impl *)
Definition add_bulk_impl (r : bitmap) (ctx : bulk_context) (val : Z) : bitmap * bulk_context :=
  let key := Z.shiftr val 16 in
  let miss := let '(r', idx) := containerptr_roaring_bitmap_add r val in (r', Some (key, idx)) in
  match ctx with
  | None => miss
  | Some (ckey, cidx) =>
    if negb (ckey =? key) then miss
    else (ra_set_container_at_index r cidx (container_add (rcon r cidx) (Z.land val 65535)), ctx)
  end.
(** roaring.c:157-160 roaring_bitmap_add_bulk *)
Definition roaring_bitmap_add_bulk := add_bulk_impl.
Definition add_bulk_list (r : bitmap) (ctx : bulk_context) (vals : list Z) : bitmap * bulk_context :=
  fold_left (fun '(r, ctx) v => add_bulk_impl r ctx v) vals (r, ctx).
(** roaring.c:132-155 roaring_bitmap_add_many *)
Definition roaring_bitmap_add_many (r : bitmap) (vals : list Z) : bitmap :=
  match vals with
  | [] => r
  | v :: _ =>
    let '(r', idx) := containerptr_roaring_bitmap_add r v in
    fst (add_bulk_list r' (Some (Z.shiftr v 16, idx)) vals)
  end.
(** roaring.c:193-197 roaring_bitmap_of_ptr; 199-212 roaring_bitmap_of *)
Definition roaring_bitmap_of_ptr (vals : list Z) : bitmap := roaring_bitmap_add_many [] vals.
Definition roaring_bitmap_of (vals : list Z) : bitmap := fst (add_bulk_list [] None vals).
(** roaring.c:162-191 roaring_bitmap_contains_bulk *)
Definition roaring_bitmap_contains_bulk (r : bitmap) (ctx : bulk_context) (val : Z) : bool * bulk_context :=
  let key := Z.shiftr val 16 in
  let hit idx ctx' := (container_contains (rcon r idx) (Z.land val 65535), ctx') in
  let seek start_idx :=
    let idx := ra_advance_until r key start_idx in
    if idx =? zlen r then (false, ctx)
    else let ctx' := Some (rkey r idx, idx) in
         if negb (rkey r idx =? key) then (false, ctx') else hit idx ctx' in
  match ctx with
  | None => seek (-1)
  | Some (ckey, cidx) => if negb (ckey =? key) then (if ckey <? key then seek cidx else seek (-1)) else hit cidx ctx
  end.
Definition contains_bulk_list (r : bitmap) (ctx : bulk_context) (vals : list Z) : list bool :=
  fst (fold_left (fun '(out, ctx) v => let '(b, ctx') := roaring_bitmap_contains_bulk r ctx v in (out ++ [b], ctx')) vals ([], ctx)).
(** roaring.c:663-695 roaring_bitmap_remove_many *)
Fixpoint remove_many_loop (r : bitmap) (pos : Z) (vals : list Z) : bitmap :=
  match vals with
  | [] => r
  | v :: vs =>
    let key := Z.shiftr v 16 in
    let pos := if (pos <? 0) || negb (key =? rkey r pos) then ra_get_index r key else pos in
    if 0 <=? pos then
      let c2 := container_remove (rcon r pos) (Z.land v 65535) in
      let r' := ra_replace_key_and_container_at_index r pos key c2 in
      if negb (container_nonzero_cardinality c2) then remove_many_loop (ra_remove_at_index r' pos) (-1) vs
      else remove_many_loop r' pos vs
    else remove_many_loop r pos vs
  end.
Definition roaring_bitmap_remove_many (r : bitmap) (vals : list Z) : bitmap :=
  if (zlen vals =? 0) || (zlen r =? 0) then r else remove_many_loop r (-1) vals.

(** ** Proofs *)
Lemma val_split v : 0 <= v < 2^32 ->
  Z.shiftr v 16 = v / 65536 /\ Z.land v 65535 = v mod 65536 /\ 0 <= v / 65536 < 65536 /\ 0 <= v mod 65536 < 65536.
Proof.
  intros. repeat split; try dm.
  - rewrite Z.shiftr_div_pow2 by lia. reflexivity.
  - change 65535 with (Z.ones 16). rewrite Z.land_ones by lia. reflexivity.
Qed.
Definition kset (r : bitmap) (k : Z) (P : Z -> bool) (j x : Z) : bool := if j =? k then P x else km r j x.
Lemma not_below k l : (forall y, In y l -> y < k) -> ~ In k l.
Proof. intros H Hin. specialize (H k Hin). lia. Qed.
Lemma not_above k l : (forall y, In y l -> k < y) -> ~ In k l.
Proof. intros H Hin. specialize (H k Hin). lia. Qed.
Lemma gok_mid (C : container -> Prop) lo pre k c post : gok C lo (pre ++ (k, c) :: post) <->
  gok C lo pre /\ gok C lo post /\ lo <= k < 65536 /\ C c /\ (forall y, In y (rkeys pre) -> y < k) /\ (forall y, In y (rkeys post) -> k < y).
Proof.
  rewrite gok_app, gok_cons. split.
  - intros (A&(B&D&E)&F). split; auto. split; [eapply gok_weaken; [apply E|lia]|]. split; auto. split; auto. split.
    + intros y Hy. apply F; auto. now left.
    + intros y Hy. pose proof (inb_In _ _ _ _ (proj1 (proj2 E)) Hy). lia.
  - intros (A&B&D&E&F&G). split; auto. split; [split; auto; split; auto|].
    + destruct B as (B1&B2&B3). split; auto. split; auto. apply Forall_forall. intros y Hy. specialize (G y Hy).
      pose proof (inb_In _ _ _ _ B2 Hy). lia.
    + intros x y Hx Hy. cbn [rkeys map fst] in Hy. destruct Hy as [Hy|Hy]; [subst; auto|]. specialize (F x Hx). specialize (G y Hy). lia.
Qed.
Lemma km_mid pre k c post j x : (forall y, In y (rkeys pre) -> y < k) -> (forall y, In y (rkeys post) -> k < y) ->
  km (pre ++ (k, c) :: post) j x = if j =? k then cmem c x else km (pre ++ post) j x.
Proof.
  intros H1 H2. unfold km. rewrite !look_app. destruct (Z.eqb_spec j k) as [E|E].
  - subst. rewrite look_none by now apply not_below. cbn [look]. now rewrite Z.eqb_refl.
  - cbn [look]. replace (j =? k) with false by lia. reflexivity.
Qed.
Lemma km_gap pre k post j x : (forall y, In y (rkeys pre) -> y < k) -> (forall y, In y (rkeys post) -> k < y) -> j = k ->
  km (pre ++ post) j x = false.
Proof.
  intros H1 H2 ->. unfold km. rewrite look_app. rewrite look_none by now apply not_below. rewrite look_none by now apply not_above. reflexivity.
Qed.
Lemma set_at_mid pre k c post c' : ra_set_container_at_index (pre ++ (k, c) :: post) (zlen pre) c' = pre ++ (k, c') :: post.
Proof.
  unfold ra_set_container_at_index. rewrite zupd_app by auto. do 3 f_equal.
  unfold rkey. rewrite rnth_app2 by lia. now rewrite Z.sub_diag.
Qed.
Lemma replace_at_mid pre k c post k' c' : ra_replace_key_and_container_at_index (pre ++ (k, c) :: post) (zlen pre) k' c' = pre ++ (k', c') :: post.
Proof. unfold ra_replace_key_and_container_at_index. now rewrite zupd_app. Qed.
Lemma rcon_mid pre k c post : rcon (pre ++ (k, c) :: post) (zlen pre) = c.
Proof. unfold rcon. rewrite rnth_app2 by lia. now rewrite Z.sub_diag. Qed.
Lemma rkey_mid pre k c post : rkey (pre ++ (k, c) :: post) (zlen pre) = k.
Proof. unfold rkey. rewrite rnth_app2 by lia. now rewrite Z.sub_diag. Qed.
Lemma insert_at_mid pre post k c : ra_insert_new_key_value_at (pre ++ post) (zlen pre) k c = pre ++ (k, c) :: post.
Proof. unfold ra_insert_new_key_value_at. rewrite zfirst_app, zdrop_app; auto. Qed.
Lemma remove_at_mid pre k c post : ra_remove_at_index (pre ++ (k, c) :: post) (zlen pre) = pre ++ post.
Proof.
  unfold ra_remove_at_index. rewrite zfirst_app by auto. f_equal. replace (pre ++ (k, c) :: post) with ((pre ++ [(k, c)]) ++ post)
    by now rewrite <- app_assoc. apply zdrop_app. rewrite zlen_app. reflexivity.
Qed.
Lemma gok_mid_set (C : container -> Prop) lo pre k c post c' P : gok C lo (pre ++ (k, c) :: post) -> C c' ->
  (forall x, 0 <= x < 65536 -> cmem c' x = P x) ->
  bmrep C lo (pre ++ (k, c') :: post) (kset (pre ++ (k, c) :: post) k P).
Proof.
  intros G Hc Hp. pose proof (proj1 (gok_mid _ _ _ _ _ _) G) as (A&B&D&E&F&H). split; [apply gok_mid; auto 10|].
  intros j x Hj Hx. unfold kset. rewrite !km_mid by auto. destruct (j =? k); auto.
Qed.
Lemma gok_mid_ins (C : container -> Prop) lo pre k post c' P : gok C lo (pre ++ post) -> lo <= k < 65536 ->
  (forall y, In y (rkeys pre) -> y < k) -> (forall y, In y (rkeys post) -> k < y) -> C c' ->
  (forall x, 0 <= x < 65536 -> cmem c' x = P x) ->
  bmrep C lo (pre ++ (k, c') :: post) (kset (pre ++ post) k P).
Proof.
  intros G Hk H1 H2 Hc Hp. apply gok_app in G as (G1&G2&G3). split; [apply gok_mid; auto 10|].
  intros j x Hj Hx. unfold kset. rewrite !km_mid by auto. destruct (j =? k); auto.
Qed.
Lemma gok_mid_rem (C : container -> Prop) lo pre k c post : gok C lo (pre ++ (k, c) :: post) ->
  bmrep C lo (pre ++ post) (kset (pre ++ (k, c) :: post) k (fun _ => false)).
Proof.
  intros G. apply gok_mid in G as (A&B&D&E&F&H). split.
  - apply gok_app. split; auto. split; auto. intros x y Hx Hy. specialize (F x Hx). specialize (H y Hy). lia.
  - intros j x Hj Hx. unfold kset. rewrite km_mid by auto. destruct (Z.eqb_spec j k); auto. now apply (km_gap pre k).
Qed.
Lemma km_at pre k c post x : (forall y, In y (rkeys pre) -> y < k) -> (forall y, In y (rkeys post) -> k < y) ->
  km (pre ++ (k, c) :: post) k x = cmem c x.
Proof. intros. rewrite km_mid by auto. now rewrite Z.eqb_refl. Qed.

(** ra_get_index on a well-formed bitmap, specialised *)
Lemma get_index_cases r k : bok r ->
  (exists pre c post, r = pre ++ (k, c) :: post /\ ra_get_index r k = zlen pre /\ cok c /\
      (forall y, In y (rkeys pre) -> y < k) /\ (forall y, In y (rkeys post) -> k < y)) \/
  (exists pre post, r = pre ++ post /\ ra_get_index r k = - zlen pre - 1 /\
      (forall y, In y (rkeys pre) -> y < k) /\ (forall y, In y (rkeys post) -> k < y)).
Proof.
  intros B. destruct (ra_get_index_spec cok 0 r k B) as [(pre&c&post&E&I&L&G)|(pre&post&E&I&L&G)].
  - left. exists pre, c, post. repeat split; auto. subst. apply gok_mid in B. tauto.
  - right. exists pre, post. auto.
Qed.

Lemma add_new v : 0 <= v < 65536 -> container_add (CArr []) v = CArr [v].
Proof. reflexivity. Qed.
Lemma cok_single v : 0 <= v < 65536 -> cok (CArr [v]) /\ forall x, cmem (CArr [v]) x = (x =? v).
Proof.
  intros. split.
  - cbn [cok]. change (zlen [v]) with 1. split; [|lia]. split; [apply incr_cons; split; [constructor|exact I]|].
    apply inb_cons. split; auto. constructor.
  - intros x. cbn. now rewrite orb_false_r.
Qed.

(** the specification shared by all the point updates *)
Definition upd_spec (r r' : bitmap) (v : Z) (b : bool) : Prop :=
  bok r' /\ forall w, mem r' w = if w =? v then b else mem r w.
Lemma kset_mem r r' v P b : bok r -> 0 <= v < 2^32 ->
  rspec r' (kset r (v / 65536) P) ->
  (forall x, 0 <= x < 65536 -> P x = if x =? v mod 65536 then b else km r (v / 65536) x) -> upd_spec r r' v b.
Proof.
  intros B Hv (B'&H) HP. split; auto. intros w.
  destruct (Z_lt_dec w 0). { rewrite !mem_oob by (auto; lia). now replace (w =? v) with false by lia. }
  destruct (Z_le_dec (2^32) w). { rewrite !mem_oob by (auto; lia). now replace (w =? v) with false by lia. }
  rewrite (bmrep_mem r' _ (conj B' H) w) by lia. unfold kset, mem.
  destruct (Z.eqb_spec (w / 65536) (v / 65536)) as [E|E].
  - rewrite E, HP by dm. destruct (Z.eqb_spec (w mod 65536) (v mod 65536)) as [F|F].
    + replace (w =? v) with true by dm. auto.
    + replace (w =? v) with false by dm. auto.
  - replace (w =? v) with false by dm. auto.
Qed.
Lemma kset_same r k P : (forall x, 0 <= x < 65536 -> km r k x = P x) -> bok r -> rspec r (kset r k P).
Proof.
  intros H B. split; auto. intros j x Hj Hx. unfold kset. destruct (Z.eqb_spec j k); auto. subst. auto.
Qed.

Lemma add_kset r v : bok r -> 0 <= v < 2^32 ->
  rspec (roaring_bitmap_add r v) (kset r (v / 65536) (fun x => km r (v / 65536) x || (x =? v mod 65536))).
Proof.
  intros B Hv. destruct (val_split v Hv) as (E1&E2&H1&H2). unfold roaring_bitmap_add. rewrite E1, E2. cbn zeta.
  set (k := v / 65536) in *. set (x0 := v mod 65536) in *.
  destruct (get_index_cases r k B) as [(pre&c&post&E&I&D&L&G)|(pre&post&E&I&L&G)]; rewrite I; pose proof (zlen_nonneg pre).
  - replace (0 <=? zlen pre) with true by lia. subst r. rewrite rcon_mid, set_at_mid.
    destruct (container_add_spec c x0 D H2) as [O1 O2]. apply gok_mid_set; auto.
    intros x Hx. cbn beta. rewrite km_at by auto. apply O2; auto.
  - replace (0 <=? - zlen pre - 1) with false by lia. replace (- (- zlen pre - 1) - 1) with (zlen pre) by lia.
    subst r. rewrite insert_at_mid, add_new by auto. destruct (cok_single x0 H2) as [O1 O2]. apply gok_mid_ins; auto.
    intros x Hx. cbn beta. rewrite (km_gap pre k) by auto. apply O2.
Qed.
Theorem roaring_bitmap_add_spec r v : bok r -> 0 <= v < 2^32 -> upd_spec r (roaring_bitmap_add r v) v true.
Proof.
  intros B Hv. eapply kset_mem; eauto; [now apply add_kset|]. intros x Hx. cbn beta.
  destruct (x =? v mod 65536); [apply orb_true_r|apply orb_false_r].
Qed.

Lemma add_type c v : cok c -> 0 <= v < 65536 -> cmem c v = true -> ctype (container_add c v) = ctype c.
Proof.
  intros D Hv M. destruct c as [a|b|rr]; cbn [container_add cmem] in *; try reflexivity.
  destruct D as [Wa La]. pose proof (try_add_spec a v 4096 Wa Hv) as T. cbn zeta in T.
  destruct (array_container_try_add a v 4096) as [rc a']. rewrite M in T. cbn [fst snd] in T.
  inversion T. reflexivity.
Qed.
Lemma ccard_add c c' v : 0 <= v < 65536 -> (forall x, 0 <= x < 65536 -> cmem c' x = cmem c x || (x =? v)) ->
  ccard c' = ccard c + if cmem c v then 0 else 1.
Proof.
  intros Hv H. unfold ccard.
  assert (U : forall x, 0 <= x < 65536 -> x <> v -> cmem c' x = cmem c x).
  { intros x Hx Hn. rewrite H by lia. replace (x =? v) with false by lia. apply orb_false_r. }
  rewrite (cnt_upd (cmem c) (cmem c') 0 65536 v Hv U). rewrite H, Z.eqb_refl, orb_true_r by lia. destruct (cmem c v); lia.
Qed.
Lemma ccard_remove c c' v : 0 <= v < 65536 -> (forall x, 0 <= x < 65536 -> cmem c' x = cmem c x && negb (x =? v)) ->
  ccard c' = ccard c - if cmem c v then 1 else 0.
Proof.
  intros Hv H. unfold ccard.
  assert (U : forall x, 0 <= x < 65536 -> x <> v -> cmem c' x = cmem c x).
  { intros x Hx Hn. rewrite H by lia. replace (x =? v) with false by lia. apply andb_true_r. }
  rewrite (cnt_upd (cmem c) (cmem c') 0 65536 v Hv U). rewrite H, Z.eqb_refl, andb_false_r by lia. destruct (cmem c v); lia.
Qed.
Theorem roaring_bitmap_add_checked_spec r v : bok r -> 0 <= v < 2^32 ->
  roaring_bitmap_add_checked r v = (roaring_bitmap_add r v, negb (mem r v)).
Proof.
  intros B Hv. destruct (val_split v Hv) as (E1&E2&H1&H2). unfold roaring_bitmap_add, roaring_bitmap_add_checked, mem. rewrite E1, E2. cbn zeta.
  set (k := v / 65536) in *. set (x0 := v mod 65536) in *.
  destruct (get_index_cases r k B) as [(pre&c&post&E&I&D&L&G)|(pre&post&E&I&L&G)]; rewrite I; pose proof (zlen_nonneg pre).
  - replace (0 <=? zlen pre) with true by lia. subst r. rewrite rcon_mid, set_at_mid, km_at by auto. f_equal.
    destruct (container_add_spec c x0 D H2) as [O1 O2]. rewrite !container_get_cardinality_spec by auto.
    rewrite (ccard_add c _ x0 H2 O2). pose proof (add_type c x0 D H2) as T. destruct (cmem c x0).
    + rewrite T, Z.eqb_refl by auto. cbn [negb]. rewrite Z.add_0_r, Z.eqb_refl. reflexivity.
    + replace (ccard c =? ccard c + 1) with false by lia. now destruct (ctype (container_add c x0) =? ctype c).
  - replace (0 <=? - zlen pre - 1) with false by lia. subst r. rewrite (km_gap pre k) by auto. reflexivity.
Qed.
Lemma remove_kset r v : bok r -> 0 <= v < 2^32 ->
  rspec (roaring_bitmap_remove r v) (kset r (v / 65536) (fun x => km r (v / 65536) x && negb (x =? v mod 65536))).
Proof.
  intros B Hv. destruct (val_split v Hv) as (E1&E2&H1&H2). unfold roaring_bitmap_remove. rewrite E1, E2. cbn zeta.
  set (k := v / 65536) in *. set (x0 := v mod 65536) in *.
  destruct (get_index_cases r k B) as [(pre&c&post&E&I&D&L&G)|(pre&post&E&I&L&G)]; rewrite I; pose proof (zlen_nonneg pre).
  - replace (0 <=? zlen pre) with true by lia. subst r. rewrite rcon_mid.
    pose proof (container_remove_spec c x0 D H2) as R. destruct (container_nonzero_cardinality (container_remove c x0)) eqn:N.
    + destruct (erep_some _ _ R N) as [O1 O2]. rewrite set_at_mid. apply gok_mid_set; auto.
      intros x Hx. cbn beta. rewrite km_at by auto. apply O2; auto.
    + pose proof (erep_none _ _ R N) as O2. rewrite remove_at_mid. eapply bmrep_ext; [apply gok_mid_rem; eauto|].
      intros j x Hj Hx. unfold kset. destruct (j =? k); auto. rewrite km_at by auto. symmetry. apply O2; auto.
  - replace (0 <=? - zlen pre - 1) with false by lia. apply kset_same; auto. intros x Hx. subst r.
    rewrite (km_gap pre k) by auto. reflexivity.
Qed.
Theorem roaring_bitmap_remove_spec r v : bok r -> 0 <= v < 2^32 -> upd_spec r (roaring_bitmap_remove r v) v false.
Proof.
  intros B Hv. eapply kset_mem; eauto; [now apply remove_kset|]. intros x Hx. cbn beta.
  destruct (x =? v mod 65536); [apply andb_false_r|apply andb_true_r].
Qed.
Lemma get_cardinality_eok c : eok c -> container_get_cardinality c = ccard c.
Proof.
  intros H. destruct c as [a|b|rr]; cbn [eok container_get_cardinality] in *.
  - apply awf_acard. tauto.
  - exact (container_get_cardinality_spec (CBit b) H).
  - apply run_cardinality_spec. tauto.
Qed.
Theorem roaring_bitmap_remove_checked_spec r v : bok r -> 0 <= v < 2^32 ->
  roaring_bitmap_remove_checked r v = (roaring_bitmap_remove r v, mem r v).
Proof.
  intros B Hv. destruct (val_split v Hv) as (E1&E2&H1&H2). unfold roaring_bitmap_remove, roaring_bitmap_remove_checked, mem. rewrite E1, E2. cbn zeta.
  set (k := v / 65536) in *. set (x0 := v mod 65536) in *.
  destruct (get_index_cases r k B) as [(pre&c&post&E&I&D&L&G)|(pre&post&E&I&L&G)]; rewrite I; pose proof (zlen_nonneg pre).
  - replace (0 <=? zlen pre) with true by lia. subst r. rewrite rcon_mid, km_at by auto.
    destruct (container_remove_spec c x0 D H2) as [O1 O2]. rewrite (container_get_cardinality_spec c D), (get_cardinality_eok _ O1).
    rewrite (ccard_remove c _ x0 H2 O2).
    assert (N : container_nonzero_cardinality (container_remove c x0) = negb (ccard (container_remove c x0) =? 0)).
    { apply eq_iff_eq_true. rewrite (container_nonzero_spec _ (eok_lok _ O1)). rewrite negb_true_iff, Z.eqb_neq. unfold cne, ccard. split.
      - intros (x&Hx&Ex) C0. rewrite (cnt_none_inv (cmem (container_remove c x0)) 0 65536 C0) in Ex by lia. discriminate.
      - intros C0. apply cnt_pos_ex in C0. exact C0. }
    rewrite N, (ccard_remove c _ x0 H2 O2). f_equal. destruct (cmem c x0).
    + now replace (ccard c =? ccard c - 1) with false by lia.
    + rewrite Z.sub_0_r, Z.eqb_refl. reflexivity.
  - replace (0 <=? - zlen pre - 1) with false by lia. subst r. rewrite (km_gap pre k) by auto. reflexivity.
Qed.
Theorem roaring_bitmap_contains_spec r v : bok r -> 0 <= v < 2^32 -> roaring_bitmap_contains r v = mem r v.
Proof.
  intros B Hv. destruct (val_split v Hv) as (E1&E2&H1&H2). unfold roaring_bitmap_contains, mem. rewrite E1, E2. cbn zeta.
  set (k := v / 65536) in *. set (x0 := v mod 65536) in *.
  destruct (get_index_cases r k B) as [(pre&c&post&E&I&D&L&G)|(pre&post&E&I&L&G)]; rewrite I; pose proof (zlen_nonneg pre).
  - replace (zlen pre <? 0) with false by lia. subst r. rewrite rcon_mid, km_at by auto. apply container_contains_spec; auto. now apply cok_lok.
  - replace (- zlen pre - 1 <? 0) with true by lia. subst r. now rewrite (km_gap pre k) by auto.
Qed.

(** ** Bulk operations *)
(** the cached index really holds the cached key *)
Definition ctx_ok (r : bitmap) (ctx : bulk_context) : Prop :=
  match ctx with None => True | Some (k, i) => 0 <= i < zlen r /\ rkey r i = k end.
Lemma containerptr_spec r v : bok r -> 0 <= v < 2^32 ->
  fst (containerptr_roaring_bitmap_add r v) = roaring_bitmap_add r v /\
  ctx_ok (roaring_bitmap_add r v) (Some (v / 65536, snd (containerptr_roaring_bitmap_add r v))).
Proof.
  intros B Hv. destruct (val_split v Hv) as (E1&E2&H1&H2). unfold roaring_bitmap_add, containerptr_roaring_bitmap_add. rewrite E1, E2. cbn zeta.
  set (k := v / 65536) in *. set (x0 := v mod 65536) in *.
  destruct (get_index_cases r k B) as [(pre&c&post&E&I&D&L&G)|(pre&post&E&I&L&G)]; rewrite I; pose proof (zlen_nonneg pre).
  - replace (0 <=? zlen pre) with true by lia. cbn [fst snd ctx_ok]. split; auto. subst r. rewrite set_at_mid, rkey_mid. split; auto.
    rewrite zlen_app, zlen_cons. pose proof (zlen_nonneg post). lia.
  - replace (0 <=? - zlen pre - 1) with false by lia. cbn [fst snd ctx_ok]. split; auto.
    replace (- (- zlen pre - 1) - 1) with (zlen pre) by lia. subst r. rewrite insert_at_mid, rkey_mid. split; auto.
    rewrite zlen_app, zlen_cons. pose proof (zlen_nonneg post). lia.
Qed.
Lemma get_index_at r i : bok r -> 0 <= i < zlen r -> ra_get_index r (rkey r i) = i.
Proof.
  intros B Hi. destruct (get_index_cases r (rkey r i) B) as [(pre&c&post&E&I&D&L&G)|(pre&post&E&I&L&G)].
  - rewrite I. destruct (Z_lt_dec i (zlen pre)).
    + exfalso. assert (In (rkey r i) (rkeys pre)).
      { rewrite E. unfold rkey. rewrite rnth_app1 by lia. change (fst (rnth pre i)) with (rkey pre i). rewrite <- znth_rkeys by lia.
        apply znth_In. rewrite zlen_rkeys. lia. }
      specialize (L _ H). lia.
    + destruct (Z.eq_dec i (zlen pre)); auto. exfalso.
      assert (zlen pre < i) by lia. pose proof (adv_key r (zlen pre) i (gok_incr _ _ _ B) ltac:(pose proof (zlen_nonneg pre); lia) ltac:(lia)) as K.
      assert (rkey r (zlen pre) = rkey r i) by (rewrite E at 1; apply rkey_mid). lia.
  - exfalso. assert (In (rkey r i) (rkeys r)) by (rewrite <- znth_rkeys by lia; apply znth_In; rewrite zlen_rkeys; lia).
    rewrite E, rkeys_app, in_app_iff in H. rewrite <- E in H. destruct H as [H|H]; [specialize (L _ H)|specialize (G _ H)]; lia.
Qed.
Lemma add_bulk_spec r ctx v : bok r -> ctx_ok r ctx -> 0 <= v < 2^32 ->
  fst (add_bulk_impl r ctx v) = roaring_bitmap_add r v /\ ctx_ok (roaring_bitmap_add r v) (snd (add_bulk_impl r ctx v)).
Proof.
  intros B Hc Hv. pose proof (containerptr_spec r v B Hv) as CP. destruct (val_split v Hv) as (E1&E2&H1&H2). unfold add_bulk_impl. rewrite E1, E2.
  assert (M : fst (let '(r', idx) := containerptr_roaring_bitmap_add r v in (r', Some (v / 65536, idx))) = roaring_bitmap_add r v /\
    ctx_ok (roaring_bitmap_add r v) (snd (let '(r', idx) := containerptr_roaring_bitmap_add r v in (r', Some (v / 65536, idx))))).
  { destruct (containerptr_roaring_bitmap_add r v). cbn [fst snd] in *. auto. }
  destruct ctx as [[ck ci]|]; auto. destruct (Z.eqb_spec ck (v / 65536)) as [E|E]; cbn [negb]; auto.
  cbn [ctx_ok fst snd] in *. destruct Hc as [Hc1 Hc2].
  assert (I : ra_get_index r (v / 65536) = ci) by (rewrite <- E, <- Hc2; now apply get_index_at).
  unfold roaring_bitmap_add. rewrite E1, E2. cbn zeta. rewrite I. replace (0 <=? ci) with true by lia. split; auto.
  rewrite (rkeys_split r ci) by lia. set (pre := zfirst ci r) in *.
  assert (ZP : zlen pre = ci) by (unfold pre; rewrite zfirst_zlen; lia). rewrite <- ZP. rewrite set_at_mid, rkey_mid, rcon_mid.
  rewrite ZP, Hc2. split; auto. rewrite zlen_app, zlen_cons. pose proof (zlen_nonneg (zdrop (ci + 1) r)). lia.
Qed.
Lemma add_bulk_list_spec vals r ctx : bok r -> ctx_ok r ctx -> (forall v, In v vals -> 0 <= v < 2^32) ->
  fst (add_bulk_list r ctx vals) = fold_left roaring_bitmap_add vals r.
Proof.
  unfold add_bulk_list. revert r ctx. induction vals as [|v vs IH]; intros r ctx B Hc Hv; [reflexivity|]. cbn [fold_left].
  destruct (add_bulk_spec r ctx v B Hc (Hv v (or_introl eq_refl))) as [A1 A2].
  destruct (add_bulk_impl r ctx v) as [r' ctx']. cbn [fst snd] in *. subst r'. apply IH; auto.
  - apply roaring_bitmap_add_spec; auto. apply Hv. now left.
  - intros. apply Hv. now right.
Qed.
Lemma fold_add_spec vals r : bok r -> (forall v, In v vals -> 0 <= v < 2^32) ->
  bok (fold_left roaring_bitmap_add vals r) /\
  forall w, mem (fold_left roaring_bitmap_add vals r) w = mem r w || zmem w vals.
Proof.
  revert r. induction vals as [|v vs IH]; intros r B Hv; cbn [fold_left].
  - split; auto. intros. cbn. now rewrite orb_false_r.
  - destruct (roaring_bitmap_add_spec r v B (Hv v (or_introl eq_refl))) as [B' M].
    destruct (IH _ B' ltac:(intros; apply Hv; now right)) as [B'' M']. split; auto. intros w. rewrite M', M.
    change (zmem w (v :: vs)) with ((w =? v) || zmem w vs). destruct (w =? v); cbn [orb]; [now rewrite orb_true_r|reflexivity].
Qed.
Lemma add_same r v : bok r -> 0 <= v < 2^32 -> mem r v = true ->
  forall w, mem (roaring_bitmap_add r v) w = mem r w.
Proof.
  intros B Hv M w. destruct (roaring_bitmap_add_spec r v B Hv) as [_ H]. rewrite H. destruct (Z.eqb_spec w v); subst; auto.
Qed.
Theorem roaring_bitmap_add_many_spec r vals : bok r -> (forall v, In v vals -> 0 <= v < 2^32) ->
  bok (roaring_bitmap_add_many r vals) /\ forall w, mem (roaring_bitmap_add_many r vals) w = mem r w || zmem w vals.
Proof.
  intros B Hv. destruct vals as [|v vs]; cbn [roaring_bitmap_add_many]. { split; auto. intros. cbn. now rewrite orb_false_r. }
  pose proof (Hv v (or_introl eq_refl)) as Hv0. destruct (containerptr_spec r v B Hv0) as [C1 C2].
  destruct (roaring_bitmap_add_spec r v B Hv0) as [B' M].
  destruct (containerptr_roaring_bitmap_add r v) as [r' idx]. cbn [fst snd] in *. subst r'.
  destruct (val_split v Hv0) as (E1&_). rewrite E1. rewrite add_bulk_list_spec by auto.
  destruct (fold_add_spec (v :: vs) _ B' Hv) as [B'' M']. split; auto. intros w. rewrite M', M.
  change (zmem w (v :: vs)) with ((w =? v) || zmem w vs). destruct (w =? v); cbn [orb]; auto. now rewrite orb_true_r.
Qed.
Lemma bok_nil : bok []. Proof. apply gok_nil. Qed.
Theorem roaring_bitmap_of_ptr_spec vals : (forall v, In v vals -> 0 <= v < 2^32) ->
  bok (roaring_bitmap_of_ptr vals) /\ forall w, mem (roaring_bitmap_of_ptr vals) w = zmem w vals.
Proof. intros. exact (roaring_bitmap_add_many_spec [] vals bok_nil H). Qed.
Theorem roaring_bitmap_of_spec vals : (forall v, In v vals -> 0 <= v < 2^32) ->
  bok (roaring_bitmap_of vals) /\ forall w, mem (roaring_bitmap_of vals) w = zmem w vals.
Proof.
  intros. unfold roaring_bitmap_of. rewrite add_bulk_list_spec by (auto using bok_nil; exact I).
  exact (fold_add_spec vals [] bok_nil H).
Qed.

Lemma look_at r i : bok r -> 0 <= i < zlen r -> look r (rkey r i) = Some (rcon r i).
Proof.
  intros B Hi. apply look_In; [apply B|]. set (e := (rkey r i, rcon r i)). rewrite (rkeys_split r i Hi). apply in_or_app. right. now left.
Qed.
(** ** contains_bulk *)
Lemma seek_spec r k s : bok r -> -1 <= s < zlen r -> (0 <= s -> rkey r s < k) ->
  let idx := ra_advance_until r k s in
  0 <= idx <= zlen r /\
  (if (idx =? zlen r) || negb (rkey r idx =? k) then look r k = None else look r k = Some (rcon r idx)).
Proof.
  intros B Hs Hk. destruct (ra_advance_until_spec r k s (gok_incr _ _ _ B) Hs Hk) as (A1&A2&A3). cbn zeta.
  set (idx := ra_advance_until r k s) in *. split; [lia|].
  assert (NI : (forall q, 0 <= q < zlen r -> rkey r q <> k) -> look r k = None).
  { intros H. apply look_none. intros Hin. apply In_znth in Hin as (q&Hq&Eq). rewrite zlen_rkeys in Hq.
    rewrite znth_rkeys in Eq by lia. now apply (H q). }
  destruct (Z.eqb_spec idx (zlen r)); cbn [orb].
  - apply NI. intros q Hq. specialize (A2 q). lia.
  - destruct (Z.eqb_spec (rkey r idx) k) as [E|E]; cbn [negb].
    + rewrite <- E. apply look_at; auto; lia.
    + apply NI. intros q Hq Eq. destruct (Z_lt_dec q idx). { specialize (A2 q). lia. }
      destruct (Z.eq_dec q idx); [apply E; rewrite <- e; exact Eq|]. pose proof (adv_key r idx q (gok_incr _ _ _ B) ltac:(lia) ltac:(lia)).
      specialize (A3 idx ltac:(lia)). lia.
Qed.
Lemma contains_bulk_spec r ctx v : bok r -> ctx_ok r ctx -> 0 <= v < 2^32 ->
  fst (roaring_bitmap_contains_bulk r ctx v) = mem r v /\ ctx_ok r (snd (roaring_bitmap_contains_bulk r ctx v)).
Proof.
  intros B Hc Hv. destruct (val_split v Hv) as (E1&E2&H1&H2). unfold roaring_bitmap_contains_bulk, mem. rewrite E1, E2.
  set (k := v / 65536) in *. set (x0 := v mod 65536) in *.
  pose proof (zlen_nonneg r) as Hz.
  assert (SK : forall s, -1 <= s -> (s < zlen r) -> (0 <= s -> rkey r s < k) ->
    let res := (let idx := ra_advance_until r k s in
       if idx =? zlen r then (false, ctx)
       else let ctx' := Some (rkey r idx, idx) in
         if negb (rkey r idx =? k) then (false, ctx') else (container_contains (rcon r idx) x0, ctx')) in
    fst res = km r k x0 /\ ctx_ok r (snd res)).
  { intros s S1 S2 S3. destruct (seek_spec r k s B ltac:(lia) S3) as (A&L). cbn zeta. set (idx := ra_advance_until r k s) in *.
    unfold km. destruct (Z.eqb_spec idx (zlen r)); cbn [orb] in L.
    - rewrite L. cbn [fst snd]. auto.
    - destruct (negb (rkey r idx =? k)); rewrite L; cbn [fst snd ctx_ok].
      + split; auto. split; auto; lia.
      + split; [|split; auto; lia]. apply container_contains_spec; auto. apply cok_lok. now apply (gok_look cok 0 r k _ B). }
  destruct ctx as [[ck ci]|].
  - cbn [ctx_ok] in Hc. destruct Hc as [Hc1 Hc2]. destruct (Z.eqb_spec ck k) as [E|E]; cbn [negb].
    + cbn [fst snd ctx_ok]. split; auto.
      assert (L : look r k = Some (rcon r ci)).
      { rewrite <- E, <- Hc2. now apply look_at. }
      unfold km. rewrite L. apply container_contains_spec; auto. apply cok_lok. now apply (gok_look cok 0 r k _ B).
    + destruct (Z.ltb_spec ck k); apply SK; lia.
  - destruct (Z.eq_dec (zlen r) 0).
    + assert (r = []) by (apply zlen_0_nil; auto). subst. cbn. auto.
    + apply SK; lia.
Qed.
Lemma contains_bulk_list_gen r vals out ctx : bok r -> ctx_ok r ctx -> (forall v, In v vals -> 0 <= v < 2^32) ->
  fst (fold_left (fun '(out, ctx) v => let '(b, ctx') := roaring_bitmap_contains_bulk r ctx v in (out ++ [b], ctx')) vals (out, ctx))
   = out ++ map (mem r) vals.
Proof.
  intros B.
  revert out ctx. induction vals as [|v vs IH]; intros out ctx Hc Hv; cbn [fold_left map].
  - cbn. now rewrite app_nil_r.
  - destruct (contains_bulk_spec r ctx v B Hc (Hv v (or_introl eq_refl))) as [A1 A2].
    destruct (roaring_bitmap_contains_bulk r ctx v) as [b ctx']. cbn [fst snd] in *. subst b.
    rewrite IH; auto; [|intros; apply Hv; now right]. now rewrite <- app_assoc.
Qed.
Theorem contains_bulk_list_spec r vals ctx : bok r -> ctx_ok r ctx -> (forall v, In v vals -> 0 <= v < 2^32) ->
  contains_bulk_list r ctx vals = map (mem r) vals.
Proof. intros. unfold contains_bulk_list. now rewrite contains_bulk_list_gen. Qed.

(** ** remove_many *)
Lemma remove_many_loop_spec vals r pos : bok r -> pos < zlen r -> (forall v, In v vals -> 0 <= v < 2^32) ->
  remove_many_loop r pos vals = fold_left roaring_bitmap_remove vals r.
Proof.
  revert r pos. induction vals as [|v vs IH]; intros r pos B Hp Hv; [reflexivity|]. cbn [remove_many_loop fold_left].
  pose proof (Hv v (or_introl eq_refl)) as Hv0. destruct (val_split v Hv0) as (E1&E2&H1&H2).
  pose proof (roaring_bitmap_remove_spec r v B Hv0) as [B' _].
  assert (Hv' : forall w, In w vs -> 0 <= w < 2^32) by (intros; apply Hv; now right).
  rewrite E1, E2.
  assert (EP : (if (pos <? 0) || negb (v / 65536 =? rkey r pos) then ra_get_index r (v / 65536) else pos) = ra_get_index r (v / 65536)).
  { destruct (Z.ltb_spec pos 0); cbn [orb]; auto. destruct (Z.eqb_spec (v / 65536) (rkey r pos)) as [E|E]; cbn [negb]; auto.
    rewrite E. symmetry. apply get_index_at; auto; lia. }
  rewrite EP. clear EP. unfold roaring_bitmap_remove at 2. unfold roaring_bitmap_remove in B'. rewrite E1, E2 in *. cbn zeta in *.
  set (k := v / 65536) in *. set (x0 := v mod 65536) in *.
  destruct (get_index_cases r k B) as [(pre&c&post&E&I&D&L&G)|(pre&post&E&I&L&G)]; rewrite I in *; pose proof (zlen_nonneg pre).
  - replace (0 <=? zlen pre) with true in * by lia. subst r. rewrite rcon_mid, replace_at_mid, remove_at_mid, set_at_mid in *.
    rewrite remove_at_mid in *.
    destruct (container_nonzero_cardinality (container_remove c x0)); cbn [negb].
    + apply IH; auto. rewrite zlen_app, zlen_cons. pose proof (zlen_nonneg post). lia.
    + apply IH; auto. pose proof (zlen_nonneg (pre ++ post)). lia.
  - replace (0 <=? - zlen pre - 1) with false in * by lia. apply IH; auto. pose proof (zlen_nonneg r). lia.
Qed.
Lemma fold_remove_spec vals r : bok r -> (forall v, In v vals -> 0 <= v < 2^32) ->
  bok (fold_left roaring_bitmap_remove vals r) /\
  forall w, mem (fold_left roaring_bitmap_remove vals r) w = mem r w && negb (zmem w vals).
Proof.
  revert r. induction vals as [|v vs IH]; intros r B Hv; cbn [fold_left].
  - split; auto. intros. cbn. now rewrite andb_true_r.
  - destruct (roaring_bitmap_remove_spec r v B (Hv v (or_introl eq_refl))) as [B' M].
    destruct (IH _ B' ltac:(intros; apply Hv; now right)) as [B'' M']. split; auto. intros w. rewrite M', M.
    change (zmem w (v :: vs)) with ((w =? v) || zmem w vs). destruct (w =? v); cbn [orb andb negb]; [now rewrite andb_false_r|reflexivity].
Qed.
Theorem roaring_bitmap_remove_many_spec r vals : bok r -> (forall v, In v vals -> 0 <= v < 2^32) ->
  bok (roaring_bitmap_remove_many r vals) /\ forall w, mem (roaring_bitmap_remove_many r vals) w = mem r w && negb (zmem w vals).
Proof.
  intros B Hv. unfold roaring_bitmap_remove_many. destruct (Z.eqb_spec (zlen vals) 0) as [E|E]; cbn [orb].
  - apply zlen_0_nil in E. subst. split; auto. intros. cbn. now rewrite andb_true_r.
  - destruct (Z.eqb_spec (zlen r) 0) as [E'|E'].
    + apply zlen_0_nil in E'. subst. split; auto.
    + rewrite remove_many_loop_spec by (auto; pose proof (zlen_nonneg r); lia). now apply fold_remove_spec.
Qed.
