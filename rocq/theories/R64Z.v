(** R64Z: the frozen format of 64-bit bitmaps (src/roaring64.c:2178-2526): one flag byte, the
    number of containers, their element counts, the bytes in bitset, run and array containers,
    the tree (ArtZ), and the contents of the containers; every part aligned relative to the
    start, which must itself be a multiple of 64.

    Positions are offsets from the start of the buffer.  A view shares memory with the buffer;
    the model gives its value for the content the buffer has when the view is made. *)
From Verif Require Import Base ArrayUtil BitUtil BitsetC ArrayC RunC RunD Convert Containers RArray.
From Verif Require Import Bytes Serial SerialP.
From Verif Require Import Art ArtS ArtN ArtW ArtT ArtU ArtI ArtR ArtL ArtH ArtZ R64 R64P R64H.
From Verif Require RQuery RStat Frozen FrozenP.
Local Opaque zr n48_pairs n256_pairs.

(** * Model *)
(** roaring64.c:2181-2199 container_get_element_count *)
Definition container_get_element_count (c : container) : Z := match c with CBit b => b_card b | CArr a => zlen a | CRun x => zlen x end.
(** roaring64.c:2201-2218 container_get_frozen_size *)
Definition container_get_frozen_size (c : container) : Z :=
  match c with CBit _ => 1024 * 8 | CArr _ => container_get_element_count c * 2 | CRun _ => container_get_element_count c * 4 end.
(** total_sizes of bitset, run and array containers *)
Definition totals : Type := (Z * Z * Z)%type.
Definition add_total (s : totals) (c : container) : totals :=
  let '(b, r, a) := s in
  let n := container_get_frozen_size c in
  match c with CBit _ => (b + n, r, a) | CRun _ => (b, r + n, a) | CArr _ => (b, r, a + n) end.
(** roaring64.c:2224-2260 roaring64_bitmap_frozen_size_in_bytes *)
Definition roaring64_bitmap_frozen_size_in_bytes (r : r64) : option Z :=
  if negb (is_shrunken r) then Some 0 else
  let size := 1 + 8 + zlen (r_cont r) * 2 + 3 * 8 in
  let size := align_size size 8 + art_size_in_bytes (r_art r) in
  do (tb, tr, ta) <- each_of r (fun _ leaf s => do c <- get_container r leaf; Some (add_total s c, true)) (0, 0, 0);
  let size := align_size size 64 + tb in
  let size := align_size size 2 + ta in
  let size := align_size size 2 + tr in
  Some (align_size size 64).
(** roaring64.c:2294-2300 pad_align; the buffer starts at offset 0 *)
Definition pad_align (alignment : Z) (st : list Z * Z) : option (list Z * Z) :=
  let pad := align_size (snd st) alignment - snd st in
  wr (repeat 0 (Z.to_nat pad)) pad st.
Definition skip (n : Z) (st : list Z * Z) : list Z * Z := (fst st, snd st + n).
(** roaring64.c:2262-2292 container_frozen_serialize: the memory and the pointers into the
    three zones *)
Definition container_frozen_serialize (c : container) (s : list Z * totals) : option (list Z * totals) :=
  let '(m, (b, r, a)) := s in
  let p := match c with CBit _ => b | CRun _ => r | CArr _ => a end in
  do m1 <- store m p (Frozen.zone_bytes c);
  Some (m1, add_total (b, r, a) c).
(** roaring64.c:2302-2377 roaring64_bitmap_frozen_serialize for a buffer that is not NULL: the
    memory and the number of bytes.  The bitmap of the model has no flag byte: [flags]. *)
Definition roaring64_bitmap_frozen_serialize (g : Z -> Z -> Z -> Z) (flags : Z) (r : r64) (buf : list Z) : option (list Z * Z) :=
  if negb (is_shrunken r) then Some (buf, 0) else
  do st <- wr [flags] 1 (buf, 0);
  do st <- wr (le 8 (zlen (r_cont r))) 8 st;
  do (st, (tb, tr, ta)) <- each_of r (fun _ leaf (s : (list Z * Z) * totals) =>
    do c <- get_container r leaf;
    do st1 <- wr (le 2 (container_get_element_count c - 1)) 2 (fst s);
    Some ((st1, add_total (snd s) c), true)) (st, (0, 0, 0));
  do st <- wr (le 8 tb) 8 st;
  do st <- wr (le 8 tr) 8 st;
  do st <- wr (le 8 ta) 8 st;
  do st <- pad_align 8 st;
  do st <- art_serialize g (r_art r) st;
  do st <- pad_align 64 st;
  let bitsets := snd st in
  do st <- pad_align 2 (skip tb st);
  let runs := snd st in
  do st <- pad_align 2 (skip tr st);
  let arrays := snd st in
  let st := skip ta st in
  do (m, _) <- each_of r (fun _ leaf s => do c <- get_container r leaf; do s1 <- container_frozen_serialize c s; Some (s1, true)) (fst st, (bitsets, runs, arrays));
  pad_align 64 (m, snd st).

(** roaring64.c:2379-2416 container_frozen_view: the container and the pointers.  Its contents
    are read where the pointers lead; outside the buffer (None) a use of the container would
    be undefined. *)
Definition container_frozen_view (tc elem_count : Z) (buf : list Z) (p : totals) : option (container * totals) :=
  let '(b, r, a) := p in
  if tc =? 1 then do c <- bitset_container_read elem_count buf b; Some (CBit c, (b + 8192, r, a))
  else if tc =? 2 then do c <- array_container_read elem_count buf a; Some (CArr c, (b, r, a + 2 * elem_count))
  else if tc =? 3 then
    do l <- rd buf r (elem_count * 4);
    Some (CRun (pair_up (le_vals 2 (2 * Z.to_nat elem_count) l)), (b, r + 4 * elem_count, a))
  else None.
(** roaring64.c:236-257 roaring64_bitmap_free of a view whose containers were not set up yet: it
    frees what the uninitialised table holds at the index of each leaf *)
Definition view_fail {A} (a : art) : res A :=
  match art_init_iterator a true with
  | Some it => if i_val it =? 0 then Fail else UB
  | None => UB
  end.
(** roaring64.c:2418-2526 roaring64_bitmap_frozen_view; [aligned]: the address is a multiple of
    64.  first_free of the result is that of a new bitmap, 0.  The bytes skipped before the
    tree (2477) are not taken from maxbytes.  A tree with more leaves than containers, which
    no serialization produces, counts as undefined. *)
Definition roaring64_bitmap_frozen_view (aligned : bool) (buf : list Z) (maxbytes : Z) : res r64 :=
  if negb aligned then Fail else
  if maxbytes <? 1 then Fail else
  let maxbytes := maxbytes - 1 in
  if maxbytes <? 8 then Fail else
  match rdv 8 buf 1 with
  | None => UB
  | Some capacity =>
    let maxbytes := maxbytes - 8 in
    let containers := repeat (@None container) (Z.to_nat (u64 (capacity * 8) / 8)) in
    let n := u64 (capacity * 2) in
    if maxbytes <? n then Fail else
    let elem_counts := 9 in
    let p := elem_counts + n in
    let maxbytes := maxbytes - n in
    if maxbytes <? 8 * 3 then Fail else
    match rdv 8 buf p, rdv 8 buf (p + 8), rdv 8 buf (p + 16) with
    | Some tb, Some tr, Some ta =>
      let maxbytes := maxbytes - 24 in
      let p := align_size (p + 24) 8 in
      match art_frozen_view buf p maxbytes with
      | None => UB
      | Some (a, art_size) =>
        if art_size =? 0 then view_fail a else
        let before := p + art_size in
        let maxbytes := maxbytes - art_size in
        let bitsets := align_size before 64 in
        let runs := align_size (bitsets + tb) 2 in
        let arrays := align_size (runs + tr) 2 in
        if maxbytes <? u64 (arrays + ta - before) then view_fail a else
        match (do it <- art_init_iterator a true;
               each (S (length containers)) a it (fun _ leaf (s : Z * totals * list (option container)) =>
                 let '(i, ptrs, cs) := s in
                 do k <- rdv 2 buf (elem_counts + i * 2);
                 let index := get_index leaf in
                 do (c, ptrs1) <- container_frozen_view (get_typecode leaf) (k + 1) buf ptrs;
                 do _ <- guard (index <? zlen cs);
                 Some ((i + 1, ptrs1, upd (Z.to_nat index) (Some c) cs), true)) (0, (bitsets, runs, arrays), containers))
        with
        | Some (_, _, cs) => Ok (R64 a 0 cs)
        | None => UB
        end
      end
    | _, _, _ => UB
    end
  end.

(** * Proofs *)
Notation zoneB := (FrozenP.zone FrozenP.isB).
Notation zoneR := (FrozenP.zone RQuery.is_run).
Notation zoneA := (FrozenP.zone FrozenP.isA).
Notation totB := (RStat.tot (RStat.onB Frozen.zone_size)).
Notation totR := (RStat.tot (RStat.onR Frozen.zone_size)).
Notation totA := (RStat.tot (RStat.onA Frozen.zone_size)).
Definition plus (s : totals) (l : bitmap) : totals := let '(b, r, a) := s in (b + totB l, r + totR l, a + totA l).
Lemma frozen_size_zone c : container_get_frozen_size c = Frozen.zone_size c. Proof. destruct c; reflexivity. Qed.
Lemma ekc_cons x l : map ekc (x :: l) = (kv (e_key x), e_c x) :: map ekc l. Proof. reflexivity. Qed.
Lemma plus_cons s x l : plus (add_total s (e_c x)) (map ekc l) = plus s (map ekc (x :: l)).
Proof.
  destruct s as [[b r] a]. rewrite ekc_cons. unfold add_total. rewrite frozen_size_zone. cbn [plus RStat.tot]. destruct (e_c x); cbn [RStat.onA RStat.onB RStat.onR plus]; (apply (f_equal2 pair); [apply (f_equal2 pair)|]; lia).
Qed.
Lemma plus_nil s : plus s [] = s. Proof. destruct s as [[b r] a]. cbn. now rewrite !Z.add_0_r. Qed.
Lemma totals_efold r xs : R r xs -> forall l d s, xs = d ++ l -> efold (fun _ leaf s => do c <- get_container r leaf; Some (add_total s c, true)) l s = Some (plus s (map ekc l)).
Proof.
  intros H. induction l as [|x l IH]; intros d s E; cbn [efold]; [now rewrite plus_nil|].
  rewrite (R_get r xs x H) by (subst; apply in_elt). cbn [obind negb]. rewrite (IH (d ++ [x])) by (now rewrite <- app_assoc). now rewrite plus_cons.
Qed.
Definition counts (l : list ent) : list Z := map (fun x => container_get_element_count (e_c x) - 1) l.
Lemma counts_efold r xs : R r xs -> forall l d st s pre rest, xs = d ++ l -> cursor st pre rest -> 2 * zlen l <= zlen rest ->
  exists st', efold (fun _ leaf (s : (list Z * Z) * totals) => do c <- get_container r leaf; do st1 <- wr (le 2 (container_get_element_count c - 1)) 2 (fst s); Some ((st1, add_total (snd s) c), true)) l (st, s)
    = Some (st', plus s (map ekc l)) /\ cursor st' (pre ++ les 2 (counts l)) (skipn (length (les 2 (counts l))) rest).
Proof.
  intros H. induction l as [|x l IH]; intros d st s pre rest E C L; cbn [efold].
  - exists st. rewrite plus_nil. split; auto. cbn. now rewrite app_nil_r.
  - rewrite (R_get r xs x H) by (subst; apply in_elt). cbn [obind fst]. rewrite zlen_cons in L. pose proof (zlen_nonneg l).
    destruct (wr_cursor (le 2 (container_get_element_count (e_c x) - 1)) 2 st pre rest C ltac:(rewrite le_zlen; lia) ltac:(now rewrite le_zlen)) as (st1 & W & C1). rewrite W. cbn [obind snd negb].
    destruct (IH (d ++ [x]) st1 (add_total s (e_c x)) _ _ ltac:(now rewrite <- app_assoc) C1) as (st2 & E2 & C2). { unfold zlen in *. rewrite skipn_length, le_length. lia. }
    exists st2. rewrite E2. split; [now rewrite plus_cons|]. cbn [counts map]. rewrite les_cons. rewrite app_assoc. unfold cursor in *. rewrite C2. do 2 f_equal. rewrite app_length, skipn_skipn'. reflexivity.
Qed.
Lemma zones_efold r xs : R r xs -> Forall (fun x => cok (e_c x)) xs -> forall l d B1 B2 R1 R2 A1 A2 T, xs = d ++ l ->
  zlen B2 = totB (map ekc l) -> zlen R2 = totR (map ekc l) -> zlen A2 = totA (map ekc l) ->
  exists p, efold (fun _ leaf s => do c <- get_container r leaf; do s1 <- container_frozen_serialize c s; Some (s1, true)) l
    (B1 ++ B2 ++ R1 ++ R2 ++ A1 ++ A2 ++ T, (zlen B1, zlen (B1 ++ B2 ++ R1), zlen (B1 ++ B2 ++ R1 ++ R2 ++ A1)))
  = Some (B1 ++ zoneB (map ekc l) ++ R1 ++ zoneR (map ekc l) ++ A1 ++ zoneA (map ekc l) ++ T, p).
Proof.
  intros H F. induction l as [|x l IH]; intros d B1 B2 R1 R2 A1 A2 T E HB HR HA; cbn [efold].
  - cbn [map RStat.tot] in *. rewrite (zlen_0_nil B2), (zlen_0_nil R2), (zlen_0_nil A2) by auto. cbn. eauto.
  - rewrite (R_get r xs x H) by (subst; apply in_elt). cbn [obind]. rewrite Forall_forall in F. assert (CX : cok (e_c x)) by (apply F; subst; apply in_elt). rewrite <- Forall_forall in F.
    pose proof (FrozenP.zone_bytes_zlen _ (cok_ctyped _ CX)) as ZB. pose proof (FrozenP.zone_size_nonneg (e_c x)) as ZN. pose proof (FrozenP.tot_zone_nonneg (map ekc l)) as (N1 & N2 & N3).
    rewrite !ekc_cons in *. rewrite !FrozenP.zone_cons. cbn [RStat.tot] in *.
    unfold container_frozen_serialize, add_total. rewrite frozen_size_zone. specialize (IH (d ++ [x])).
    destruct (e_c x) as [a|b|y]; cbn [FrozenP.isB FrozenP.isA RQuery.is_run RStat.onA RStat.onB RStat.onR app] in *.
    + destruct (FrozenP.split_at (Frozen.zone_size (CArr a)) A2) as (Aa & Ab & -> & LA & LB); [lia|].
      replace (B1 ++ B2 ++ R1 ++ R2 ++ A1 ++ (Aa ++ Ab) ++ T) with ((B1 ++ B2 ++ R1 ++ R2 ++ A1) ++ Aa ++ (Ab ++ T)) by now rewrite <- !app_assoc.
      rewrite FrozenP.store_mid by (auto; lia). cbn [obind negb].
      specialize (IH B1 B2 R1 R2 (A1 ++ Frozen.zone_bytes (CArr a)) Ab T ltac:(now rewrite <- app_assoc) ltac:(lia) ltac:(lia) ltac:(lia)). destruct IH as (p & IH). exists p.
      rewrite <- !app_assoc in *. cbn [app] in *. rewrite <- IH. f_equal. f_equal. apply (f_equal2 pair); [apply (f_equal2 pair)|]; rewrite ?zlen_app, ?ZB; lia.
    + destruct (FrozenP.split_at (Frozen.zone_size (CBit b)) B2) as (Aa & Ab & -> & LA & LB); [lia|].
      replace (B1 ++ (Aa ++ Ab) ++ R1 ++ R2 ++ A1 ++ A2 ++ T) with (B1 ++ Aa ++ (Ab ++ R1 ++ R2 ++ A1 ++ A2 ++ T)) by now rewrite <- !app_assoc.
      rewrite FrozenP.store_mid by (auto; lia). cbn [obind negb].
      specialize (IH (B1 ++ Frozen.zone_bytes (CBit b)) Ab R1 R2 A1 A2 T ltac:(now rewrite <- app_assoc) ltac:(lia) ltac:(lia) ltac:(lia)). destruct IH as (p & IH). exists p.
      rewrite <- !app_assoc in *. cbn [app] in *. rewrite <- IH. f_equal. f_equal. apply (f_equal2 pair); [apply (f_equal2 pair)|]; rewrite ?zlen_app, ?ZB; lia.
    + destruct (FrozenP.split_at (Frozen.zone_size (CRun y)) R2) as (Aa & Ab & -> & LA & LB); [lia|].
      replace (B1 ++ B2 ++ R1 ++ (Aa ++ Ab) ++ A1 ++ A2 ++ T) with ((B1 ++ B2 ++ R1) ++ Aa ++ (Ab ++ A1 ++ A2 ++ T)) by now rewrite <- !app_assoc.
      rewrite FrozenP.store_mid by (auto; lia). cbn [obind negb].
      specialize (IH B1 B2 (R1 ++ Frozen.zone_bytes (CRun y)) Ab A1 A2 T ltac:(now rewrite <- app_assoc) ltac:(lia) ltac:(lia) ltac:(lia)). destruct IH as (p & IH). exists p.
      rewrite <- !app_assoc in *. cbn [app] in *. rewrite <- IH. f_equal. f_equal. apply (f_equal2 pair); [apply (f_equal2 pair)|]; rewrite ?zlen_app, ?ZB; lia.
Qed.

(** the loop of the view *)
Lemma view_efold buf xs tB tR tA eb cap : Forall (fun x => cok (e_c x)) xs -> (forall x, In x xs -> 0 <= e_ix x < cap) ->
  (forall d x l, xs = d ++ x :: l -> rdv 2 buf (eb + zlen d * 2) = Some (container_get_element_count (e_c x) - 1)) ->
  forall l d pB pR pA cs, xs = d ++ l -> buf = pB ++ zoneB (map ekc l) ++ tB -> buf = pR ++ zoneR (map ekc l) ++ tR -> buf = pA ++ zoneA (map ekc l) ++ tA ->
  zlen cs = cap -> NoDup (map e_ix xs) -> (forall x, In x d -> slot_of cs (e_ix x) = Some (e_c x)) ->
  exists i p cs', efold (fun _ leaf (s : Z * totals * list (option container)) =>
                 let '(i, ptrs, cs) := s in
                 do k <- rdv 2 buf (eb + i * 2);
                 let index := get_index leaf in
                 do (c, ptrs1) <- container_frozen_view (get_typecode leaf) (k + 1) buf ptrs;
                 do _ <- guard (index <? zlen cs);
                 Some ((i + 1, ptrs1, upd (Z.to_nat index) (Some c) cs), true)) l (zlen d, (zlen pB, zlen pR, zlen pA), cs) = Some (i, p, cs') /\
    zlen cs' = cap /\ forall x, In x xs -> slot_of cs' (e_ix x) = Some (e_c x).
Proof.
  intros F IX CN. induction l as [|x l IH]; intros d pB pR pA cs E EB ER EA LC ND SL; cbn [efold].
  - rewrite app_nil_r in E. subst d. eauto 8.
  - rewrite (CN d x l E). cbn [obind]. rewrite Z.sub_add. rewrite Forall_forall in F. assert (IN : In x xs) by (subst; apply in_elt). pose proof (F x IN) as Dc. rewrite <- Forall_forall in F.
    unfold eval. destruct (leaf_parts (e_ix x) (e_c x)) as (-> & ->). specialize (IX x IN) as IXx.
    pose proof (cok_ctyped _ Dc) as Tc. pose proof (FrozenP.zone_bytes_zlen _ Tc) as ZB.
    assert (NX : exists pB' pR' pA', container_frozen_view (typecode (e_c x)) (container_get_element_count (e_c x)) buf (zlen pB, zlen pR, zlen pA) = Some (e_c x, (zlen pB', zlen pR', zlen pA')) /\
      buf = pB' ++ zoneB (map ekc l) ++ tB /\ buf = pR' ++ zoneR (map ekc l) ++ tR /\ buf = pA' ++ zoneA (map ekc l) ++ tA).
    { clear IH. rewrite ekc_cons in EB, ER, EA. rewrite FrozenP.zone_cons in EB, ER, EA. unfold container_frozen_view.
      destruct (e_c x) as [a|b|y]; cbn [FrozenP.isB FrozenP.isA RQuery.is_run app typecode container_get_element_count Z.eqb Pos.eqb] in *; rewrite <- app_assoc in *.
      - exists pB, pR, (pA ++ Frozen.zone_bytes (CArr a)). replace (array_container_read (zlen a) buf (zlen pA)) with (Some a). 2:{ symmetry. rewrite EA. apply array_read_back. exact Tc. } cbn [obind].
        split; [repeat f_equal; rewrite zlen_app, ZB; cbn [Frozen.zone_size]; lia|]. rewrite <- app_assoc. auto.
      - exists (pB ++ Frozen.zone_bytes (CBit b)), pR, pA. replace (bitset_container_read (b_card b) buf (zlen pB)) with (Some b). 2:{ symmetry. rewrite EB. apply bitset_read_back; auto. } cbn [obind].
        split; [repeat f_equal; rewrite zlen_app, ZB; cbn [Frozen.zone_size]; lia|]. rewrite <- app_assoc. auto.
      - exists pB, (pR ++ Frozen.zone_bytes (CRun y)), pA. replace (rd buf (zlen pR) (zlen y * 4)) with (Some (Frozen.zone_bytes (CRun y))). 2:{ symmetry. rewrite ER. now apply rd_at. } cbn [obind].
        split. { f_equal. f_equal; [|repeat f_equal; rewrite zlen_app, ZB; cbn [Frozen.zone_size]; lia]. f_equal. cbn [Frozen.zone_bytes]. rewrite <- (app_nil_r (les 2 (run_words y))).
          replace (2 * Z.to_nat (zlen y))%nat with (length (run_words y)). 2:{ pose proof (run_words_zlen y). unfold zlen in *. lia. }
          rewrite le_vals_les by exact (run_words_range y (proj1 Dc)). apply pair_up_words. }
        rewrite <- app_assoc. auto. }
    destruct NX as (pB' & pR' & pA' & -> & EB' & ER' & EA'). cbn [obind]. rewrite LC. unfold guard. replace (e_ix x <? cap) with true by lia. cbn [obind negb].
    replace (zlen d + 1) with (zlen (d ++ [x])) by now rewrite zlen_app.
    apply IH; auto.
    + now rewrite <- app_assoc.
    + unfold zlen in *. now rewrite upd_length.
    + intros y Y. assert (IY : In y xs) by (subst xs; apply in_app_or in Y as [Y|[<-|[]]]; apply in_or_app; [now left|right; now left]).
      pose proof (IX y IY). rewrite slot_upd by lia. apply in_app_or in Y as [Y|[<-|[]]]; [|now rewrite Z.eqb_refl].
      destruct (Z.eqb_spec (e_ix y) (e_ix x)) as [Q|]; [|auto]. exfalso. rewrite E, map_app in ND. cbn [map] in ND. apply NoDup_remove_2 in ND. apply ND, in_or_app. left. rewrite <- Q. now apply in_map.
Qed.

(** ** A bitmap without slack *)
Fixpoint slots_bytes (cs : list (option container)) : Z :=
  match cs with [] => 0 | o :: cs' => match o with Some c => Frozen.zone_size c | None => 0 end + slots_bytes cs' end.
(** memory in use: the nodes of the tree, the table of containers and their contents *)
Definition memory64 (r : r64) : Z := total (r_art r) types + 8 * zlen (r_cont r) + slots_bytes (r_cont r).
Lemma slots_bytes_upd cs : forall n c, nth n cs None = Some c -> slots_bytes cs = Frozen.zone_size c + slots_bytes (upd n None cs).
Proof.
  induction cs as [|o cs IH]; intros [|n] c E; cbn [nth] in E; try discriminate; cbn [upd slots_bytes].
  - rewrite E. lia.
  - rewrite (IH n c E). lia.
Qed.
Lemma slots_bytes_pool m : forall cs ff, pool cs ff m -> slots_bytes cs = RStat.tot Frozen.zone_size m.
Proof.
  induction m as [|[i c] m IH]; intros cs ff P.
  - destruct P as (_ & _ & C & _). cbn [map In RStat.tot] in *. assert (Q : forall n, nth n cs None = None). { intros n. destruct (nth n cs None) eqn:E; auto. exfalso. apply (C (Z.of_nat n)); [lia|]. unfold slot_of. rewrite Nat2Z.id. congruence. }
    clear C. induction cs as [|o cs IHc]; auto. cbn [slots_bytes]. pose proof (Q O) as Q0. cbn in Q0. subst o. rewrite IHc; auto. intros n. exact (Q (S n)).
  - cbn [RStat.tot]. rewrite <- (IH _ _ (pool_remove _ _ _ _ _ P)). destruct P as (A & _). destruct (A i c (or_introl eq_refl)) as (_ & E). now apply slots_bytes_upd.
Qed.
Lemma pool_full cs m : pool cs (zlen cs) m -> zlen m = zlen cs.
Proof.
  intros P. pose proof (pool_len _ _ _ P) as L. destruct P as (A & B & C & D & E & _).
  assert (I : incl (zr 0 (zlen cs)) (map fst m)). { intros i X. apply zr_In in X. apply C; [lia|]. apply E. lia. }
  pose proof (NoDup_incl_length (incr_NoDup _ (zr_incr 0 (zlen cs))) I) as L2. rewrite map_length in L2. pose proof (zlen_nonneg cs). pose proof (zr_zlen 0 (zlen cs) ltac:(lia)) as Z. unfold zlen in *. lia.
Qed.
Record shrunk (r : r64) (xs : list ent) : Prop := Shrunk {
  s_R : R r xs; s_cok : Forall (fun x => cok (e_c x)) xs; s_sh : is_shrunken r = true; s_mem : memory64 r < 2^52 }.
Lemma shrunk_facts r xs : shrunk r xs -> zlen xs = zlen (r_cont r) /\ fits (r_art r) (map efl xs) /\ slots_ok (r_art r) /\ art_is_shrunken (r_art r) = true /\
  0 <= total (r_art r) types /\ 0 <= totB (map ekc xs) /\ 0 <= totR (map ekc xs) /\ 0 <= totA (map ekc xs) /\
  total (r_art r) types + 8 * zlen (r_cont r) + totB (map ekc xs) + totR (map ekc xs) + totA (map ekc xs) < 2^52 /\ forall x, In x xs -> 0 <= e_ix x < zlen (r_cont r).
Proof.
  intros [H F S M]. pose proof H as (A & P). unfold is_shrunken in S. apply andb_prop in S as (S1 & S2). apply Z.eqb_eq in S2. rewrite S2 in P. pose proof (slots_bytes_pool _ _ _ P) as SB. pose proof (pool_full _ _ P) as L. rewrite zlen_map in L.
  pose proof (total_nonneg (r_art r) types types_range) as TN. pose proof (FrozenP.tot_zone_nonneg (map ekc xs)) as (N1 & N2 & N3). unfold memory64 in M. pose proof (zlen_nonneg (r_cont r)) as ZC.
  assert (TS : slots_bytes (r_cont r) = totB (map ekc xs) + totR (map ekc xs) + totA (map ekc xs)).
  { rewrite SB. transitivity (RStat.tot Frozen.zone_size (map ekc xs)); [|rewrite RStat.tot_split; lia]. clear. induction xs as [|x xs IH]; auto. rewrite ekc_cons. change (map eix (x :: xs)) with (eix x :: map eix xs). destruct x as [k lf i c]. cbn [eix RStat.tot e_ix e_c e_key] in *. change (eix (Ent k lf i c)) with (i, c). cbn [RStat.tot]. rewrite IH. reflexivity. }
  assert (IX : forall x, In x xs -> 0 <= e_ix x < zlen (r_cont r)).
  { intros x I. destruct P as (PA & _). apply (in_map eix) in I. apply PA in I as (I0 & IS). split; auto. apply slot_in; auto. congruence. }
  assert (FT : fits (r_art r) (map efl xs)).
  { split.
    - intros t B. unfold total, types in *. cbn [fold_right] in *. unfold capacity in *.
      pose proof (zlen_nonneg (a_nodes (r_art r) 1)); pose proof (zlen_nonneg (a_nodes (r_art r) 2)); pose proof (zlen_nonneg (a_nodes (r_art r) 3)); pose proof (zlen_nonneg (a_nodes (r_art r) 4)); pose proof (zlen_nonneg (a_nodes (r_art r) 5)).
      change (node_size 1) with 16 in *. change (node_size 2) with 48 in *. change (node_size 3) with 152 in *. change (node_size 4) with 656 in *. change (node_size 5) with 2056 in *.
      assert (D : t = 1 \/ t = 2 \/ t = 3 \/ t = 4 \/ t = 5) by lia. destruct D as [->|[->|[->|[->| ->]]]]; lia.
    - intros k lf v I. apply in_map_iff in I as (x & E & I). injection E as <- <- <-. apply IX in I. unfold eval, create_leaf. pose proof (typecode_range (e_c x)). lia. }
  split; [exact L|]. split; [exact FT|]. split; [eapply arep_slots; eauto|]. split; [exact S1|]. do 5 (split; [lia|]). exact IX.
Qed.

(** ** The image *)
Definition zpad (k : Z) (l : list Z) : list Z := repeat 0 (Z.to_nat (align_size (zlen l) k - zlen l)).
Definition header (flags : Z) (r : r64) (xs : list ent) : list Z :=
  (((([flags] ++ le 8 (zlen (r_cont r))) ++ les 2 (counts xs)) ++ le 8 (totB (map ekc xs))) ++ le 8 (totR (map ekc xs))) ++ le 8 (totA (map ekc xs)).
Definition part1 flags r xs := header flags r xs ++ zpad 8 (header flags r xs).
Definition part2 g flags r xs := part1 flags r xs ++ art_image g (r_art r).
Definition part3 g flags r xs := part2 g flags r xs ++ zpad 64 (part2 g flags r xs).
Definition part4 g flags r xs := part3 g flags r xs ++ zoneB (map ekc xs) ++ zoneR (map ekc xs) ++ zoneA (map ekc xs).
Definition image64z g flags r xs := part4 g flags r xs ++ zpad 64 (part4 g flags r xs).
Lemma zpad_zlen k l : 0 <= k -> zlen l + 2 ^ k - 1 < 2^64 -> zlen (l ++ zpad (2 ^ k) l) = align_size (zlen l) (2 ^ k) /\ zlen (zpad (2 ^ k) l) = align_size (zlen l) (2 ^ k) - zlen l /\
  zlen l <= align_size (zlen l) (2 ^ k) < zlen l + 2 ^ k /\ align_size (zlen l) (2 ^ k) mod 2 ^ k = 0.
Proof.
  intros K B. pose proof (align_ge (zlen l) k K (zlen_nonneg l) B) as (A1 & A2). assert (E : zlen (zpad (2 ^ k) l) = align_size (zlen l) (2 ^ k) - zlen l) by (unfold zpad; unfold zlen at 1; rewrite repeat_length; lia).
  rewrite zlen_app, E. repeat split; auto; lia.
Qed.
Lemma header_zlen flags r xs : zlen (header flags r xs) = 33 + 2 * zlen xs.
Proof. unfold header. rewrite !zlen_app, !le_zlen, les_zlen. unfold counts. rewrite zlen_map. change (zlen [flags]) with 1. lia. Qed.
Lemma even_tots l : totB l mod 2 = 0 /\ totR l mod 2 = 0 /\ totA l mod 2 = 0.
Proof.
  induction l as [|[k c] l (A & B & C)]; [auto|]. cbn [RStat.tot]. destruct c; cbn [RStat.onA RStat.onB RStat.onR Frozen.zone_size]; repeat split; lia.
Qed.
Lemma parts_zlen g flags r xs : shrunk r xs ->
  zlen (part1 flags r xs) = align_size (33 + 2 * zlen xs) 8 /\ zlen (part1 flags r xs) mod 8 = 0 /\ 33 + 2 * zlen xs <= zlen (part1 flags r xs) < 33 + 2 * zlen xs + 8 /\
  zlen (art_image g (r_art r)) = 56 + total (r_art r) types /\ zlen (part2 g flags r xs) = zlen (part1 flags r xs) + zlen (art_image g (r_art r)) /\
  zlen (part3 g flags r xs) = align_size (zlen (part2 g flags r xs)) 64 /\ zlen (part3 g flags r xs) mod 64 = 0 /\ zlen (part2 g flags r xs) <= zlen (part3 g flags r xs) < zlen (part2 g flags r xs) + 64 /\
  zlen (part4 g flags r xs) = zlen (part3 g flags r xs) + totB (map ekc xs) + totR (map ekc xs) + totA (map ekc xs) /\
  zlen (image64z g flags r xs) = align_size (zlen (part4 g flags r xs)) 64 /\ zlen (image64z g flags r xs) mod 64 = 0 /\ zlen (part4 g flags r xs) <= zlen (image64z g flags r xs) < zlen (part4 g flags r xs) + 64.
Proof.
  intros S. destruct (shrunk_facts r xs S) as (L & FT & SO & SH & T0 & B0 & R0 & A0 & M & IX). pose proof (zlen_nonneg xs) as NX.
  assert (TC : Forall (fun p : RArray.entry => ctyped (snd p)) (map ekc xs)) by (apply Forall_map; eapply Forall_impl; [|apply (s_cok _ _ S)]; intros x; apply cok_ctyped).
  destruct (FrozenP.zones_zlen _ TC) as (ZB & ZR & ZA). pose proof (image_zlen g (r_art r) SO) as IZ.
  assert (P1 := zpad_zlen 3 (header flags r xs) ltac:(lia)). rewrite header_zlen in P1. change (2 ^ 3) with 8 in P1. specialize (P1 ltac:(lia)). destruct P1 as (P1 & _ & P1b & P1c).
  assert (E2 : zlen (part2 g flags r xs) = zlen (part1 flags r xs) + zlen (art_image g (r_art r))) by (unfold part2; apply zlen_app).
  fold (part1 flags r xs) in P1. assert (P3 := zpad_zlen 6 (part2 g flags r xs) ltac:(lia)). change (2 ^ 6) with 64 in P3. specialize (P3 ltac:(lia)). destruct P3 as (P3 & _ & P3b & P3c). fold (part3 g flags r xs) in P3.
  assert (E4 : zlen (part4 g flags r xs) = zlen (part3 g flags r xs) + totB (map ekc xs) + totR (map ekc xs) + totA (map ekc xs)) by (unfold part4; rewrite !zlen_app; lia).
  assert (P5 := zpad_zlen 6 (part4 g flags r xs) ltac:(lia)). change (2 ^ 6) with 64 in P5. specialize (P5 ltac:(lia)). destruct P5 as (P5 & _ & P5b & P5c). fold (image64z g flags r xs) in P5.
  rewrite P1, P3, P5. repeat split; auto; lia.
Qed.

(** ** Writing *)
Definition cur (buf : list Z) (st : list Z * Z) (pre : list Z) : Prop := st = (pre ++ skipn (length pre) buf, zlen pre) /\ zlen pre <= zlen buf.
Lemma cur_wr buf st pre bs adv : cur buf st pre -> adv = zlen bs -> zlen (pre ++ bs) <= zlen buf -> exists st', wr bs adv st = Some st' /\ cur buf st' (pre ++ bs).
Proof.
  intros (C & L) -> B. rewrite zlen_app in B. destruct (wr_cursor bs (zlen bs) st pre (skipn (length pre) buf) C) as (st' & W & C'); [unfold zlen in *; rewrite skipn_length; lia|auto|].
  exists st'. split; auto. split; [|rewrite zlen_app; lia]. unfold cursor in C'. rewrite C'. do 2 f_equal. rewrite skipn_skipn', app_length. reflexivity.
Qed.
Lemma cur_pad k buf st pre : 0 <= k -> cur buf st pre -> zlen pre + 2 ^ k - 1 < 2^64 -> zlen (pre ++ zpad (2 ^ k) pre) <= zlen buf -> exists st', pad_align (2 ^ k) st = Some st' /\ cur buf st' (pre ++ zpad (2 ^ k) pre).
Proof.
  intros K C B L. unfold pad_align. destruct C as (E & C). rewrite E. cbn [snd]. fold (zpad (2 ^ k) pre). apply cur_wr; [split; auto| |auto]. now rewrite (proj1 (proj2 (zpad_zlen k pre K B))).
Qed.
Local Ltac rw_efold H := match type of H with _ = ?rhs => match goal with |- context [efold ?f ?l ?s] => replace (efold f l s) with rhs by (symmetry; exact H) end end.
Theorem frozen_serialize_ok g flags r xs buf : shrunk r xs -> zlen (image64z g flags r xs) <= zlen buf ->
  roaring64_bitmap_frozen_size_in_bytes r = Some (zlen (image64z g flags r xs)) /\ zlen (image64z g flags r xs) mod 64 = 0 /\
  roaring64_bitmap_frozen_serialize g flags r buf = Some (image64z g flags r xs ++ skipn (length (image64z g flags r xs)) buf, zlen (image64z g flags r xs)).
Proof.
  intros S LB. destruct (shrunk_facts r xs S) as (L & FT & SO & SH & T0 & B0 & R0 & A0 & M & IX). destruct (parts_zlen g flags r xs S) as (P1 & P1m & P1b & PA & P2 & P3 & P3m & P3b & P4 & P5 & P5m & P5b).
  pose proof S as [H F SK MM]. pose proof (zlen_nonneg xs) as NX. pose proof (even_tots (map ekc xs)) as (EB & ER & EA).
  assert (TC : Forall (fun p : RArray.entry => ctyped (snd p)) (map ekc xs)) by (apply Forall_map; eapply Forall_impl; [|exact F]; intros x; apply cok_ctyped).
  destruct (FrozenP.zones_zlen _ TC) as (ZB & ZR & ZA).
  split; [|split; [exact P5m|]].
  - unfold roaring64_bitmap_frozen_size_in_bytes. rewrite SK. cbn [negb]. rewrite (each_of_efold r _ xs _ H), (totals_efold r xs H xs []) by auto. cbn [plus obind]. rewrite !Z.add_0_l. rewrite (size_ok g) by (auto; lia).
    replace (1 + 8 + zlen (r_cont r) * 2 + 3 * 8) with (33 + 2 * zlen xs) by lia. rewrite <- P1, <- P2, <- P3.
    change 2 with (2 ^ 1) at 1 2. rewrite (align_same (zlen (part3 g flags r xs) + totB (map ekc xs)) 1) by (change (2 ^ 1) with 2; lia). rewrite (align_same (zlen (part3 g flags r xs) + totB (map ekc xs) + totA (map ekc xs)) 1) by (change (2 ^ 1) with 2; lia).
    f_equal. rewrite P5, P4. f_equal. lia.
  - unfold roaring64_bitmap_frozen_serialize. rewrite SK. cbn [negb].
    assert (C0 : cur buf (buf, 0) []) by (split; [reflexivity|change (zlen (@nil Z)) with 0; pose proof (zlen_nonneg buf); lia]).
    destruct (cur_wr buf _ _ [flags] 1 C0 eq_refl) as (s1 & W1 & C1); [change (zlen ([] ++ [flags])) with 1; lia|]. rewrite W1. cbn [obind app] in *.
    destruct (cur_wr buf _ _ (le 8 (zlen (r_cont r))) 8 C1 ltac:(now rewrite le_zlen)) as (s2 & W2 & C2); [rewrite zlen_app, le_zlen; change (zlen [flags]) with 1; lia|]. rewrite W2. cbn [obind].
    rewrite (each_of_efold r _ xs _ H).
    destruct (counts_efold r xs H xs [] s2 (0, 0, 0) ([flags] ++ le 8 (zlen (r_cont r))) (skipn (length ([flags] ++ le 8 (zlen (r_cont r)))) buf) eq_refl (proj1 C2)) as (s3 & W3 & C3').
    { unfold zlen in *. rewrite skipn_length, app_length, le_length. cbn [length]. lia. }
    rw_efold W3. cbn [plus obind]. rewrite !Z.add_0_l.
    assert (C3 : cur buf s3 (([flags] ++ le 8 (zlen (r_cont r))) ++ les 2 (counts xs))).
    { split; [|rewrite !zlen_app, le_zlen, les_zlen; unfold counts; rewrite zlen_map; change (zlen [flags]) with 1; lia]. unfold cursor in C3'. rewrite C3'. do 2 f_equal. rewrite skipn_skipn', app_length. reflexivity. }
    pose proof (header_zlen flags r xs) as HZ. assert (HL : zlen (header flags r xs) <= zlen buf) by lia.
    destruct (cur_wr buf _ _ (le 8 (totB (map ekc xs))) 8 C3 ltac:(now rewrite le_zlen)) as (s4 & W4 & C4). { unfold header in HL. rewrite zlen_app, (zlen_app _ (le 8 (totR (map ekc xs)))), !le_zlen in HL. lia. } rewrite W4. cbn [obind].
    destruct (cur_wr buf _ _ (le 8 (totR (map ekc xs))) 8 C4 ltac:(now rewrite le_zlen)) as (s5 & W5 & C5). { unfold header in HL. rewrite zlen_app, !le_zlen in HL. lia. } rewrite W5. cbn [obind].
    destruct (cur_wr buf _ _ (le 8 (totA (map ekc xs))) 8 C5 ltac:(now rewrite le_zlen)) as (s6 & W6 & C6). { exact HL. } rewrite W6. cbn [obind]. fold (header flags r xs) in C6.
    destruct (cur_pad 3 buf s6 (header flags r xs) ltac:(lia) C6) as (s7 & W7 & C7). { change (2 ^ 3) with 8. lia. } { change (2 ^ 3) with 8. fold (part1 flags r xs). lia. }
    change (2 ^ 3) with 8 in W7, C7. rewrite W7. cbn [obind]. fold (part1 flags r xs) in C7.
    destruct (art_serialize_ok g (r_art r) s7 (part1 flags r xs) _ SO SH (proj1 C7)) as (s8 & W8 & C8'). { unfold zlen in *. rewrite skipn_length. lia. }
    rewrite W8. cbn [obind]. assert (C8 : cur buf s8 (part2 g flags r xs)).
    { split; [|lia]. unfold cursor in C8'. rewrite C8'. unfold part2. do 2 f_equal. rewrite skipn_skipn', app_length. reflexivity. }
    destruct (cur_pad 6 buf s8 (part2 g flags r xs) ltac:(lia) C8) as (s9 & W9 & C9). { change (2 ^ 6) with 64. lia. } { change (2 ^ 6) with 64. fold (part3 g flags r xs). lia. }
    change (2 ^ 6) with 64 in W9, C9. rewrite W9. cbn [obind]. fold (part3 g flags r xs) in C9. destruct C9 as (E9 & L9). rewrite E9. cbn [snd fst skip].
    set (p3 := part3 g flags r xs) in *. set (rest := skipn (length p3) buf) in *. assert (LR : zlen rest = zlen buf - zlen p3) by (unfold rest, zlen in *; rewrite skipn_length; lia).
    destruct (FrozenP.split_at (totB (map ekc xs)) rest) as (B2 & X1 & EX1 & LB2 & LX1); [lia|].
    destruct (FrozenP.split_at (totR (map ekc xs)) X1) as (R2 & X2 & EX2 & LR2 & LX2); [lia|].
    destruct (FrozenP.split_at (totA (map ekc xs)) X2) as (A2 & T & EX3 & LA2 & LT); [lia|].
    assert (ER2 : rest = B2 ++ R2 ++ A2 ++ T) by (rewrite EX1, EX2, EX3; reflexivity). clear EX1 EX2 EX3.
    assert (PAD : forall pos, 0 <= pos < 2^60 -> pos mod 2 = 0 -> pos <= zlen buf -> pad_align 2 (p3 ++ rest, pos) = Some (p3 ++ rest, pos)).
    { intros pos B E2 Lp. unfold pad_align. cbn [snd]. change 2 with (2 ^ 1) at 1 2. rewrite (align_same pos 1) by (change (2 ^ 1) with 2; lia). rewrite Z.sub_diag. change (repeat 0 (Z.to_nat 0)) with (@nil Z). unfold wr, store. cbn [fst snd].
      change (zlen (@nil Z)) with 0. replace ((0 <=? pos) && (pos + 0 <=? zlen (p3 ++ rest))) with true by (rewrite zlen_app; lia). rewrite Z.add_0_r. cbn [app]. now rewrite firstn_skipn. }
    unfold skip. cbn [fst snd].
    rewrite PAD by lia. cbn [obind fst snd]. rewrite PAD by lia. cbn [obind fst snd].
    rewrite (each_of_efold r _ xs _ H). destruct (zones_efold r xs H F xs [] p3 B2 [] R2 [] A2 T eq_refl LB2 LR2 LA2) as (p & EZ). cbn [app] in EZ.
    replace (p3 ++ rest) with (p3 ++ B2 ++ R2 ++ A2 ++ T) by (now rewrite ER2).
    replace (zlen p3 + totB (map ekc xs)) with (zlen (p3 ++ B2 ++ [])) by (rewrite app_nil_r, zlen_app; lia). replace (zlen (p3 ++ B2 ++ []) + totR (map ekc xs)) with (zlen (p3 ++ B2 ++ [] ++ R2 ++ [])) by (cbn [app]; rewrite !app_nil_r, !zlen_app; lia).
    cbn [app] in *. rw_efold EZ. cbn [obind].
    assert (C10 : cur buf (p3 ++ zoneB (map ekc xs) ++ zoneR (map ekc xs) ++ zoneA (map ekc xs) ++ T, zlen (p3 ++ B2 ++ R2 ++ []) + totA (map ekc xs)) (part4 g flags r xs)).
    { split; [|lia]. apply (f_equal2 pair).
      - unfold part4. fold p3. rewrite <- !app_assoc. do 4 f_equal. assert (Q : skipn (length (p3 ++ B2 ++ R2 ++ A2)) buf = T).
        { rewrite app_length, <- skipn_skipn'. fold rest. rewrite ER2. rewrite !app_assoc. rewrite skipn_app, skipn_all. rewrite <- !app_assoc. rewrite Nat.sub_diag. reflexivity. }
        rewrite <- Q at 1. f_equal. rewrite !app_length. pose proof ZB. pose proof ZR. pose proof ZA. unfold zlen in *. lia.
      - rewrite P4, !zlen_app. change (zlen (@nil Z)) with 0. lia. }
    destruct (cur_pad 6 buf _ (part4 g flags r xs) ltac:(lia) C10) as (s11 & W11 & C11). { change (2 ^ 6) with 64. lia. } { change (2 ^ 6) with 64. fold (image64z g flags r xs). lia. }
    change (2 ^ 6) with 64 in W11, C11. rewrite W11. fold (image64z g flags r xs) in C11. destruct C11 as (-> & _). reflexivity.
Qed.

(** ** The view *)
Lemma element_count_range c : cok c -> 0 <= container_get_element_count c - 1 < 65536.
Proof.
  destruct c as [a|b|x]; cbn [cok container_get_element_count].
  - lia.
  - intros ((W & C) & L). assert (b_card b <= 65536); [|lia]. rewrite C. unfold bcard. pose proof (cnt_bound (bget (b_words b)) 0 65536 ltac:(lia)). lia.
  - intros (W & N). rewrite (zlen_runs x W). pose proof (cnt_bound (run_end (rmem x)) 0 65536 ltac:(lia)). rewrite <- (zlen_runs x W) in *. destruct x; [congruence|]. rewrite zlen_cons in *. pose proof (zlen_nonneg x). lia.
Qed.
Theorem frozen_view_ok g flags r xs post mb : shrunk r xs -> zlen (image64z g flags r xs) <= mb ->
  exists b, roaring64_bitmap_frozen_view true (image64z g flags r xs ++ post) mb = Ok (R64 b 0 (r_cont r)) /\ arep b (map efl xs).
Proof.
  intros S LM. destruct (shrunk_facts r xs S) as (L & FT & SO & SH & T0 & B0 & R0 & A0 & M & IX). destruct (parts_zlen g flags r xs S) as (P1 & P1m & P1b & PA & P2 & P3 & P3m & P3b & P4 & P5 & P5m & P5b).
  pose proof S as [H F SK MM]. pose proof (zlen_nonneg xs) as NX. pose proof (even_tots (map ekc xs)) as (EB & ER & EA).
  assert (TC : Forall (fun p : RArray.entry => ctyped (snd p)) (map ekc xs)) by (apply Forall_map; eapply Forall_impl; [|exact F]; intros x; apply cok_ctyped).
  destruct (FrozenP.zones_zlen _ TC) as (ZB & ZR & ZA).
  set (buf := image64z g flags r xs ++ post) in *.
  set (cap := zlen (r_cont r)) in *.
  assert (BH : exists u, buf = header flags r xs ++ u). { unfold buf, image64z, part4, part3, part2, part1. rewrite <- !app_assoc. eauto. }
  assert (RC : rdv 8 buf 1 = Some cap).
  { destruct BH as (u & ->). unfold header. rewrite <- !app_assoc. apply (rdv_le 8 [flags]); [reflexivity|]. change (256 ^ Z.of_nat 8) with (2^64). lia. }
  assert (RB : rdv 8 buf (9 + 2 * cap) = Some (totB (map ekc xs)) /\ rdv 8 buf (9 + 2 * cap + 8) = Some (totR (map ekc xs)) /\ rdv 8 buf (9 + 2 * cap + 16) = Some (totA (map ekc xs))).
  { destruct BH as (u & ->). unfold header. assert (LC : zlen (([flags] ++ le 8 (zlen (r_cont r))) ++ les 2 (counts xs)) = 9 + 2 * cap). { rewrite !zlen_app, le_zlen, les_zlen. unfold counts. rewrite zlen_map. change (zlen [flags]) with 1. lia. }
    set (q := ([flags] ++ le 8 (zlen (r_cont r))) ++ les 2 (counts xs)) in *. rewrite <- !app_assoc. change (256 ^ Z.of_nat 8) with (2^64). repeat split.
    - apply rdv_le; [lia|]. change (256 ^ Z.of_nat 8) with (2^64). lia.
    - rewrite (app_assoc q). apply rdv_le; [rewrite zlen_app, le_zlen; lia|]. change (256 ^ Z.of_nat 8) with (2^64). lia.
    - rewrite (app_assoc q), (app_assoc (q ++ _)). apply rdv_le; [rewrite !zlen_app, !le_zlen; lia|]. change (256 ^ Z.of_nat 8) with (2^64). lia. }
  destruct RB as (RB & RR & RA).
  assert (RN : forall d x l, xs = d ++ x :: l -> rdv 2 buf (9 + zlen d * 2) = Some (container_get_element_count (e_c x) - 1)).
  { intros d x l E. destruct BH as (u & ->). unfold header. rewrite <- !app_assoc. rewrite E. unfold counts. rewrite map_app, les_app. cbn [map]. rewrite les_cons, <- !app_assoc. rewrite (app_assoc (le 8 _)), (app_assoc [flags]). apply rdv_le.
    - rewrite !zlen_app, le_zlen, les_zlen, zlen_map. change (zlen [flags]) with 1. lia.
    - change (256 ^ Z.of_nat 2) with 65536. apply element_count_range. rewrite Forall_forall in F. apply F. subst. apply in_elt. }
  assert (BA : exists u, buf = part1 flags r xs ++ art_image g (r_art r) ++ u). { unfold buf, image64z, part4, part3, part2. rewrite <- !app_assoc. eauto. }
  destruct BA as (ua & BA).
  assert (BZ : buf = part3 g flags r xs ++ zoneB (map ekc xs) ++ zoneR (map ekc xs) ++ zoneA (map ekc xs) ++ zpad 64 (part4 g flags r xs) ++ post). { unfold buf, image64z. unfold part4 at 1. rewrite <- !app_assoc. reflexivity. }
  destruct (art_frozen_view_ok g (r_art r) (map efl xs) (part1 flags r xs) ua (mb - 1 - 8 - 2 * cap - 24) (proj1 H) FT P1m) as (b & V & AB & CB); [lia|lia|lia|]. rewrite <- BA in V.
  exists b. split; [|exact AB]. unfold roaring64_bitmap_frozen_view. cbn [negb].
  replace (mb <? 1) with false by lia. replace (mb - 1 <? 8) with false by lia. rewrite RC. cbv zeta.
  assert (U1 : u64 (cap * 8) / 8 = cap). { unfold u64. rewrite Z.mod_small by lia. apply Z.div_mul. lia. } assert (U2 : u64 (cap * 2) = 2 * cap). { unfold u64. rewrite Z.mod_small by lia. lia. }
  rewrite U1, U2. replace (mb - 1 - 8 <? 2 * cap) with false by lia. replace (mb - 1 - 8 - 2 * cap <? 8 * 3) with false by lia. rewrite RB, RR, RA.
  replace (9 + 2 * cap + 24) with (33 + 2 * zlen xs) by lia. rewrite <- P1, V. replace (zlen (art_image g (r_art r)) =? 0) with false by lia. rewrite <- P2, <- P3.
  assert (A1 : align_size (zlen (part3 g flags r xs) + totB (map ekc xs)) 2 = zlen (part3 g flags r xs) + totB (map ekc xs)). { change 2 with (2 ^ 1) at 1. apply align_same; change (2 ^ 1) with 2; lia. }
  assert (A2 : align_size (zlen (part3 g flags r xs) + totB (map ekc xs) + totR (map ekc xs)) 2 = zlen (part3 g flags r xs) + totB (map ekc xs) + totR (map ekc xs)). { change 2 with (2 ^ 1) at 1. apply align_same; change (2 ^ 1) with 2; lia. }
  rewrite A1, A2. replace (mb - 1 - 8 - 2 * cap - 24 - zlen (art_image g (r_art r)) <? _) with false. 2:{ symmetry. apply Z.ltb_ge. unfold u64. rewrite Z.mod_small by lia. lia. }
  set (rv := R64 b (r_ff r) (r_cont r)). assert (HV : R rv xs) by (split; [exact AB|exact (proj2 H)]).
  destruct (at_first rv xs HV) as (it & EI & PI). change (r_art rv) with b in EI. rewrite EI. cbn [obind].
  set (cs0 := repeat (@None container) (Z.to_nat cap)). assert (LC0 : length cs0 = length xs) by (unfold cs0; rewrite repeat_length; unfold zlen in *; lia).
  assert (ND : NoDup (map e_ix xs)). { destruct (proj2 H) as (_ & N & _). now rewrite map_map in N. }
  destruct (view_efold buf xs (zoneR (map ekc xs) ++ zoneA (map ekc xs) ++ zpad 64 (part4 g flags r xs) ++ post) (zoneA (map ekc xs) ++ zpad 64 (part4 g flags r xs) ++ post) (zpad 64 (part4 g flags r xs) ++ post) 9 cap F IX RN xs [] (part3 g flags r xs) (part3 g flags r xs ++ zoneB (map ekc xs)) (part3 g flags r xs ++ zoneB (map ekc xs) ++ zoneR (map ekc xs)) cs0 eq_refl BZ) as (i & p & cs' & EV & LC & SC).
  { rewrite BZ, <- !app_assoc. reflexivity. } { rewrite BZ, <- !app_assoc. reflexivity. } { unfold cs0. unfold zlen. rewrite repeat_length. lia. } { exact ND. } { intros x []. }
  rewrite !zlen_app, ZB, ZR in EV. rewrite Z.add_assoc in EV. change (zlen (@nil ent)) with 0 in EV.
  assert (EE : forall A (body : list Z -> Z -> A -> option (A * bool)) s, each (Datatypes.S (length cs0)) b it body s = efold body xs s).
  { intros A body s. apply (each_efold rv body xs HV xs [] it s); auto; [eapply at_any; eauto|lia]. }
  rewrite EE. rw_efold EV.
  do 2 f_equal. apply (nth_ext _ _ None None); [unfold cap, zlen in *; lia|].
  intros n Hn. destruct (proj2 H) as (QA & _ & QC & _ & QD & _).
  assert (IN : In (Z.of_nat n) (map fst (map eix xs))). { apply QC; [lia|]. apply QD. unfold is_shrunken in SK. apply andb_prop in SK as (_ & SK). apply Z.eqb_eq in SK. rewrite SK. fold cap. unfold zlen in *. lia. }
  rewrite map_map in IN. apply in_map_iff in IN as (x & EX & INx). cbn [eix fst] in EX. pose proof (SC x INx) as Q1. destruct (QA (e_ix x) (e_c x)) as (_ & Q2); [apply (in_map eix) in INx; exact INx|].
  unfold slot_of in Q1, Q2. change (fst (eix x)) with (e_ix x) in EX. rewrite EX, Nat2Z.id in Q1, Q2. congruence.
Qed.
