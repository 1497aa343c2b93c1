(** R64S: the portable format of 64-bit bitmaps, src/roaring64.c:1893-2175: the number of
    distinct high halves (8 bytes), then for each high half in increasing order the half
    (4 bytes) and a 32-bit bitmap in the portable format.

    Memory is a list of bytes and a cursor, as in Serial.v; a pointer into the buffer is the
    rest of the list.  NULL buffers are not modelled.  The capacity given to
    roaring_bitmap_create_with_capacity (computed by walking a second iterator; in
    portable_serialize it compares the wrong half of the key, 2005-2007) is not visible in
    the list of containers and is left out.  Sums of sizes are size_t and do not wrap: they
    are bounded by the length of a buffer. *)
From Verif Require Import Base ArrayUtil BitUtil BitsetC ArrayC RunC RunD Convert Containers RArray.
From Verif Require Import Bytes Serial SerialP.
From Verif Require Import Art ArtS ArtN ArtW ArtT ArtU ArtI ArtR ArtL R64 R64P.
From Verif Require RRange RQuery RStat DerivedS.
Local Opaque zr n48_pairs n256_pairs.

(** * Model *)
(** roaring64.c:1893-1907 count_high32 (at most 2^32, so the counter does not wrap) *)
Definition count_high32 (r : r64) : option Z :=
  do (n, _) <- each_of r (fun key _ (p : Z * Z) =>
    let current_high32 := combine_key key 0 / 2^32 in
    Some (if (fst p =? 0) || negb (snd p =? current_high32) then (fst p + 1, current_high32) else p, true)) (0, 0);
  Some n.
(** the loop common to roaring64.c:1926-1961 and 1993-2031: containers with the same high half
    are appended to a 32-bit bitmap, which is flushed when the half changes and at the end;
    [keyof] is the key given to ra_append *)
Definition high32_body {A} (r : r64) (keyof : Z -> Z) (flush : Z -> bitmap -> A -> option A) (key : list Z) (leaf : Z) (st : A * Z * option bitmap)
  : option ((A * Z * option bitmap) * bool) :=
  let '(s, prev_high32, bitmap32) := st in
  let current_high48 := combine_key key 0 in
  let current_high32 := current_high48 / 2^32 in
  do c <- get_container r leaf;
  let e := (keyof current_high48 mod 65536, c) in
  match bitmap32 with
  | Some b => if prev_high32 =? current_high32 then Some ((s, prev_high32, Some (b ++ [e])), true)
              else do s1 <- flush prev_high32 b s; Some ((s1, current_high32, Some [e]), true)
  | None => Some ((s, current_high32, Some [e]), true)
  end.
Definition by_high32 {A} (r : r64) (keyof : Z -> Z) (flush : Z -> bitmap -> A -> option A) (s : A) : option A :=
  do (s1, prev_high32, bitmap32) <- each_of r (high32_body r keyof flush) (s, 0, None);
  match bitmap32 with None => Some s1 | Some b => flush prev_high32 b s1 end.
(** roaring64.c:1915-1974 roaring64_bitmap_portable_size_in_bytes: the keys appended are those of
    the high half (1952), which does not change the size *)
Definition roaring64_bitmap_portable_size_in_bytes (r : r64) : option Z :=
  by_high32 r (fun v => v / 2^32 / 65536) (fun _ b size => Some (size + 4 + roaring_bitmap_portable_size_in_bytes b)) 8.
(** roaring64.c:1976-2043 roaring64_bitmap_portable_serialize: the buffer and the bytes written *)
Definition flush_bytes (prev_high32 : Z) (b : bitmap) (st : list Z * Z) : option (list Z * Z) :=
  do m <- store (fst st) (snd st) (le 4 prev_high32);
  let off := snd st + 4 in
  do (rest, n) <- roaring_bitmap_portable_serialize b (skipn (Z.to_nat off) m);
  Some (firstn (Z.to_nat off) m ++ rest, off + n).
Definition roaring64_bitmap_portable_serialize (r : r64) (buf : list Z) : option (list Z * Z) :=
  do n <- count_high32 r;
  do m <- store buf 0 (le 8 n);
  by_high32 r (fun v => v / 65536) flush_bytes (m, 8).
(** roaring64.c:2045-2089 roaring64_bitmap_portable_deserialize_size; the loop 2065-2087 *)
Fixpoint size64_loop (buckets : nat) (buf : list Z) (maxbytes read_bytes : Z) : option Z :=
  match buckets with
  | O => Some read_bytes
  | S n =>
    if maxbytes <? read_bytes + 4 then Some 0 else
    do _ <- guard (4 <=? zlen buf);
    let buf := skipn 4 buf in
    let read_bytes := read_bytes + 4 in
    do s <- roaring_bitmap_portable_deserialize_size buf (maxbytes - read_bytes);
    if s =? 0 then Some 0 else size64_loop n (skipn (Z.to_nat s) buf) maxbytes (read_bytes + s)
  end.
Definition roaring64_bitmap_portable_deserialize_size (buf : list Z) (maxbytes : Z) : option Z :=
  if maxbytes <? 8 then Some 0 else
  do buckets <- rdv 8 buf 0;
  if 2^32 - 1 <? buckets then Some 0 else size64_loop (Z.to_nat buckets) (skipn 8 buf) maxbytes 8.
(** roaring64.c:2091-2175 roaring64_bitmap_portable_deserialize_safe; the loop 2116-2173, which here
    also returns read_bytes *)
Fixpoint des64_loop (buckets : nat) (buf : list Z) (maxbytes read_bytes previous_high32 : Z) (r : r64) : res (r64 * Z) :=
  match buckets with
  | O => Ok (r, read_bytes)
  | S n =>
    if maxbytes <? read_bytes + 4 then Fail else
    match rdv 4 buf 0 with
    | None => UB
    | Some high32 =>
      let buf := skipn 4 buf in
      let read_bytes := read_bytes + 4 in
      if high32 <=? previous_high32 then Fail else
      match roaring_bitmap_portable_deserialize_size buf (maxbytes - read_bytes) with
      | None => UB
      | Some s =>
        if s =? 0 then Fail else
        match roaring_bitmap_portable_deserialize_safe buf (maxbytes - read_bytes) with
        | UB => UB
        | Fail => Fail
        | Ok b =>
          if negb (RQuery.keys_increasing (-1) (rkeys b)) then Fail else
          match move_from_roaring32_offset r b high32 with
          | None => UB
          | Some r1 => des64_loop n (skipn (Z.to_nat s) buf) maxbytes (read_bytes + s) high32 r1
          end
        end
      end
    end
  end.
Definition des64 (buf : list Z) (maxbytes : Z) : res (r64 * Z) :=
  if maxbytes <? 8 then Fail else
  match rdv 8 buf 0 with
  | None => UB
  | Some buckets => if 2^32 - 1 <? buckets then Fail else des64_loop (Z.to_nat buckets) (skipn 8 buf) maxbytes 8 (-1) roaring64_bitmap_create
  end.
Definition roaring64_bitmap_portable_deserialize_safe (buf : list Z) (maxbytes : Z) : res r64 :=
  match des64 buf maxbytes with Ok (r, _) => Ok r | Fail => Fail | UB => UB end.

(** * Containers grouped by their high half *)
Fixpoint gacc (kf : Z -> Z) (h : Z) (b es : bitmap) : list (Z * bitmap) :=
  match es with
  | [] => [(h, b)]
  | (k, c) :: t => if k / 65536 =? h then gacc kf h (b ++ [(kf k, c)]) t else (h, b) :: gacc kf (k / 65536) [(kf k, c)] t
  end.
Definition groups (kf : Z -> Z) (es : bitmap) : list (Z * bitmap) :=
  match es with [] => [] | (k, c) :: t => gacc kf (k / 65536) [(kf k, c)] t end.
Fixpoint gfold {A} (flush : Z -> bitmap -> A -> option A) (gs : list (Z * bitmap)) (s : A) : option A :=
  match gs with [] => Some s | (h, b) :: t => do s1 <- flush h b s; gfold flush t s1 end.
Definition lift (h : Z) (e : Z * container) : Z * container := (h * 65536 + fst e, snd e).
Definition ungroup (gs : list (Z * bitmap)) : bitmap := flat_map (fun g => map (lift (fst g)) (snd g)) gs.
Definition kf0 (k : Z) : Z := k mod 65536.

Lemma key_high k : combine_key k 0 = kv k * 65536 /\ combine_key k 0 / 2^32 = kv k / 65536.
Proof. rewrite combine_kv, Z.add_0_r. split; auto. change (2^32) with (65536 * 65536). rewrite <- Z.div_div by lia. now rewrite Z.div_mul by lia. Qed.
Lemma by_high32_groups {A} r xs keyof (flush : Z -> bitmap -> A -> option A) s : R r xs ->
  by_high32 r keyof flush s = gfold flush (groups (fun k => keyof (k * 65536) mod 65536) (map ekc xs)) s.
Proof.
  intros H. unfold by_high32. rewrite (each_of_efold _ _ xs) by auto. assert (G : forall x, In x xs -> get_container r (eval x) = Some (e_c x)) by (intros x I; eapply R_get; eauto).
  assert (K : forall t s h b, (forall x, In x t -> In x xs) ->
    (do (s1, prev_high32, bitmap32) <- efold (high32_body r keyof flush) t (s, h, Some b); match bitmap32 with None => Some s1 | Some b => flush prev_high32 b s1 end) =
    gfold flush (gacc (fun k => keyof (k * 65536) mod 65536) h b (map ekc t)) s).
  { clear s. induction t as [|x t IH]; intros s h b S; cbn [efold map gacc ekc].
    - cbn [obind gfold]. now destruct (flush h b s).
    - unfold high32_body at 1. rewrite (G x) by (apply S; now left). destruct (key_high (e_key x)) as (E1 & E2). rewrite E2, E1. cbn [obind].
      rewrite (Z.eqb_sym h). destruct (kv (e_key x) / 65536 =? h).
      + cbn [obind negb]. apply IH. intros y I. apply S. now right.
      + cbn [gfold]. destruct (flush h b s) as [s1|]; cbn [obind]; [|reflexivity]. cbn [negb]. apply IH. intros y I. apply S. now right. }
  destruct xs as [|x t]; [reflexivity|]. cbn [efold map groups ekc]. unfold high32_body at 1. rewrite (G x) by now left. destruct (key_high (e_key x)) as (E1 & E2). rewrite E2, E1. cbn [obind negb].
  apply K. intros y I. now right.
Qed.
Lemma count_high32_groups r xs kf : R r xs -> count_high32 r = Some (zlen (groups kf (map ekc xs))).
Proof.
  intros H. unfold count_high32. rewrite (each_of_efold _ _ xs) by auto.
  set (body := fun (key : list Z) (_ : Z) (p : Z * Z) => let current_high32 := combine_key key 0 / 2 ^ 32 in Some (if (fst p =? 0) || negb (snd p =? current_high32) then (fst p + 1, current_high32) else p, true)).
  assert (K : forall t n h b, 0 < n -> exists h', efold body t (n, h) = Some (n - 1 + zlen (gacc kf h b (map ekc t)), h')).
  { induction t as [|x t IH]; intros n h b N; cbn [efold map gacc ekc].
    - exists h. change (zlen [(h, b)]) with 1. do 2 f_equal. lia.
    - unfold body at 1. cbv zeta. destruct (key_high (e_key x)) as (_ & E2). rewrite E2. cbn [obind fst snd negb]. destruct (Z.eqb_spec n 0); [lia|]. cbn [orb]. rewrite (Z.eqb_sym h).
      destruct (kv (e_key x) / 65536 =? h); cbn [negb].
      + apply IH; auto.
      + rewrite zlen_cons. destruct (IH (n + 1) (kv (e_key x) / 65536) [(kf (kv (e_key x)), e_c x)]) as (h' & ->); [lia|]. exists h'. do 2 f_equal. lia. }
  destruct xs as [|x t]; [reflexivity|]. cbn [efold map groups ekc]. unfold body at 1. cbv zeta. destruct (key_high (e_key x)) as (_ & E2). rewrite E2. cbn [obind fst snd negb orb Z.eqb].
  destruct (K t (0 + 1) (kv (e_key x) / 65536) [(kf (kv (e_key x)), e_c x)] ltac:(lia)) as (h' & ->). cbn [obind]. f_equal.
Qed.
Lemma ungroup_gacc es : forall h b, ungroup (gacc kf0 h b es) = map (lift h) b ++ es.
Proof.
  induction es as [|[k c] t IH]; intros h b; cbn [gacc].
  - cbn [ungroup flat_map fst snd]. reflexivity.
  - pose proof (Z.div_mod k 65536 ltac:(lia)) as DM. destruct (Z.eqb_spec (k / 65536) h) as [<-|N].
    + rewrite IH, map_app, <- app_assoc. cbn [map app]. do 2 f_equal. unfold lift, kf0. cbn [fst snd]. f_equal. lia.
    + change (ungroup ((h, b) :: gacc kf0 (k / 65536) [(kf0 k, c)] t)) with (map (lift h) b ++ ungroup (gacc kf0 (k / 65536) [(kf0 k, c)] t)). rewrite IH. do 2 f_equal.
      cbn [map app]. f_equal. unfold lift, kf0. cbn [fst snd]. f_equal. lia.
Qed.
Lemma ungroup_groups es : ungroup (groups kf0 es) = es.
Proof.
  destruct es as [|[k c] t]; [reflexivity|]. cbn [groups]. rewrite ungroup_gacc. cbn [map app]. f_equal. unfold lift, kf0. cbn [fst snd]. f_equal. pose proof (Z.div_mod k 65536 ltac:(lia)). lia.
Qed.
Definition group_ok (g : Z * bitmap) : Prop := 0 <= fst g < 2^32 /\ bok (snd g) /\ snd g <> [].
Lemma gacc_ok es : forall h b lo, 0 <= h < 2^32 -> bok b -> b <> [] -> (forall k, In k (rkeys b) -> h * 65536 + k < lo) -> g48 lo es ->
  Forall group_ok (gacc kf0 h b es) /\ incr (map fst (gacc kf0 h b es)) /\ hd 0 (map fst (gacc kf0 h b es)) = h /\ inb h (2^32) (map fst (gacc kf0 h b es)).
Proof.
  induction es as [|[k c] t IH]; intros h b lo HH B N L G; cbn [gacc].
  - split; [constructor; [|constructor]; split; [exact HH|]; split; auto|]. cbn [map fst hd]. split; [split; constructor|]. split; auto. constructor; [lia|constructor].
  - apply g48_cons in G as (K & O & G). pose proof (Z.div_mod k 65536 ltac:(lia)) as DM. pose proof (Z.mod_pos_bound k 65536 ltac:(lia)) as MB. destruct (Z.eqb_spec (k / 65536) h) as [E|NE].
    + apply (IH h (b ++ [(kf0 k, c)]) (k + 1)); auto.
      * unfold bok. apply RRange.gok_snoc; [exact B| |unfold kf0; lia|exact O]. intros y I. apply L in I. unfold kf0. lia.
      * now destruct b.
      * intros y I. unfold rkeys in I. rewrite map_app, in_app_iff in I. destruct I as [I|[<-|[]]]; [apply L in I; lia|]. unfold kf0. cbn [fst]. lia.
    + destruct b as [|[k0 c0] b]; [easy|]. assert (K0 : h * 65536 + k0 < lo) by (apply L; now left). assert (0 <= k0) by (apply gok_cons in B; lia).
      assert (h < k / 65536). { assert (h <= k / 65536) by (apply Z.div_le_lower_bound; lia). lia. }
      assert (KB : k / 65536 < 2^32) by (apply Z.div_lt_upper_bound; lia).
      destruct (IH (k / 65536) [(kf0 k, c)] (k + 1)) as (I1 & I2 & I3 & I4); auto; [lia| |discriminate| |].
      { apply gok_cons. split; [unfold kf0; lia|]. split; auto. apply gok_nil. }
      { intros y [<-|[]]. unfold kf0. cbn [fst]. lia. }
      cbn [map fst hd]. repeat match goal with |- _ /\ _ => split end; auto.
      * constructor; auto. split; [exact HH|]. split; [exact B|discriminate].
      * cbn [incr]. split; auto. unfold inb in I4. rewrite Forall_forall in *. intros y I. apply I4 in I. lia.
      * constructor; [lia|]. unfold inb in I4. rewrite Forall_forall in *. intros y I. apply I4 in I. lia.
Qed.
Lemma groups_ok es : g48 0 es -> Forall group_ok (groups kf0 es) /\ incr (map fst (groups kf0 es)).
Proof.
  destruct es as [|[k c] t]; [repeat constructor|]. intros G. apply g48_cons in G as (K & O & G). pose proof (Z.div_mod k 65536 ltac:(lia)) as DM. pose proof (Z.mod_pos_bound k 65536 ltac:(lia)) as MB.
  destruct (gacc_ok t (k / 65536) [(kf0 k, c)] (k + 1)) as (A & B & _); auto.
  - split; [apply Z.div_pos; lia|apply Z.div_lt_upper_bound; lia].
  - apply gok_cons. split; [unfold kf0; lia|]. split; auto. apply gok_nil.
  - discriminate.
  - intros y [<-|[]]. unfold kf0. cbn [fst]. lia.
Qed.
(** the size does not depend on the keys *)
Lemma size_keys b b' : map snd b = map snd b' -> ra_portable_size_in_bytes b = ra_portable_size_in_bytes b'.
Proof.
  intros E. rewrite !ra_size_tot.
  assert (HR : ra_has_run_container b = ra_has_run_container b').
  { unfold ra_has_run_container. revert b' E. induction b as [|[k c] b IH]; intros [|[k' c'] b'] E; try discriminate E; auto. cbn [map snd] in E. injection E as -> E. cbn [existsb snd]. f_equal. now apply IH. }
  assert (HZ : zlen b = zlen b') by (unfold zlen; f_equal; now rewrite <- (map_length snd b), E, map_length).
  assert (HT : RStat.tot RQuery.container_size_in_bytes b = RStat.tot RQuery.container_size_in_bytes b').
  { clear HR HZ. revert b' E. induction b as [|[k c] b IH]; intros [|[k' c'] b'] E; try discriminate E; auto. cbn [map snd] in E. injection E as -> E. cbn [RStat.tot snd]. f_equal. now apply IH. }
  unfold ra_portable_header_size. now rewrite HR, HZ, HT.
Qed.
Definition gsizes (gs : list (Z * bitmap)) : list Z := map (fun g => 4 + ra_portable_size_in_bytes (snd g)) gs.
Lemma gacc_sizes kf kf' es : forall h b b', map snd b = map snd b' -> gsizes (gacc kf h b es) = gsizes (gacc kf' h b' es).
Proof.
  induction es as [|[k c] t IH]; intros h b b' E; cbn [gacc].
  - unfold gsizes. cbn [map snd]. now rewrite (size_keys b b' E).
  - destruct (k / 65536 =? h).
    + apply IH. rewrite !map_app, E. reflexivity.
    + unfold gsizes in *. cbn [map snd]. rewrite (size_keys b b' E). f_equal. now apply IH.
Qed.
Lemma groups_sizes kf kf' es : gsizes (groups kf es) = gsizes (groups kf' es).
Proof. destruct es as [|[k c] t]; auto. cbn [groups]. now apply gacc_sizes. Qed.
Definition sum (l : list Z) : Z := fold_right Z.add 0 l.
Lemma gfold_size gs : forall s, gfold (fun _ b size => Some (size + 4 + roaring_bitmap_portable_size_in_bytes b)) gs s = Some (s + sum (gsizes gs)).
Proof.
  induction gs as [|[h b] t IH]; intros s; cbn [gfold]; [f_equal; cbn; lia|]. cbn [obind]. rewrite IH. f_equal. unfold gsizes. cbn [map snd sum fold_right]. unfold sum, roaring_bitmap_portable_size_in_bytes. lia.
Qed.
(** ** The bytes written *)
Definition gbytes (gs : list (Z * bitmap)) : list Z := flat_map (fun g => le 4 (fst g) ++ pbytes (snd g)) gs.
Definition out64 (es : bitmap) : list Z := le 8 (zlen (groups kf0 es)) ++ gbytes (groups kf0 es).
Lemma group_typed b : bok b -> Forall (fun p : Z * container => ctyped (snd p)) b /\ zlen b <= 65536.
Proof. intros B. pose proof (gok_size cok 0 b B ltac:(lia)). split; [apply (RQuery.bok_typed b B)|lia]. Qed.
Lemma gbytes_zlen gs : Forall group_ok gs -> zlen (gbytes gs) = sum (gsizes gs).
Proof.
  induction 1 as [|[h b] t (_ & B & _) T IH]; auto. cbn [gbytes flat_map fst snd]. rewrite !zlen_app, le_zlen. fold (gbytes t). rewrite IH. cbn [fst snd] in B. destruct (group_typed b B). rewrite pbytes_zlen by auto.
  unfold gsizes. cbn [map snd sum fold_right]. unfold sum. lia.
Qed.
Lemma gbytes_bytes gs : bytes (gbytes gs).
Proof. induction gs as [|[h b] t IH]; [constructor|]. cbn [gbytes flat_map fst snd]. apply bytes_app. split; auto. apply bytes_app. split; [apply le_bytes|apply pbytes_bytes]. Qed.
Lemma out64_bytes es : bytes (out64 es).
Proof. apply bytes_app. split; [apply le_bytes|apply gbytes_bytes]. Qed.
Lemma writes_flush h b : bok b -> writes (flush_bytes h b) (le 4 h ++ pbytes b).
Proof.
  intros B pre rest st -> H. rewrite zlen_app, le_zlen in H. change (Z.of_nat 4) with 4 in H. pose proof (zlen_nonneg (pbytes b)). unfold flush_bytes. cbn [fst snd].
  rewrite store_cursor by (rewrite le_zlen; change (Z.of_nat 4) with 4; lia). cbn [obind]. destruct (group_typed b B) as (T & L).
  set (r1 := skipn (length (le 4 h)) rest). assert (LN : length (le 4 h) = 4%nat) by apply le_length.
  assert (P4 : Z.to_nat (zlen pre + 4) = length (pre ++ le 4 h)) by (rewrite app_length, LN; unfold zlen; lia). rewrite P4, skipn_app_l, firstn_app_l by reflexivity.
  assert (R1 : zlen r1 = zlen rest - 4) by (unfold r1, zlen; rewrite skipn_length, LN; unfold zlen in H; lia).
  unfold roaring_bitmap_portable_serialize. rewrite portable_serialize_bytes by (auto; lia). cbn [obind]. eexists. split; [reflexivity|]. unfold cursor. f_equal.
  - unfold r1. rewrite !app_assoc, skipn_skipn', (app_length (le 4 h)). reflexivity.
  - rewrite !zlen_app, le_zlen. lia.
Qed.
Lemma writes_groups gs : Forall group_ok gs -> writes (gfold flush_bytes gs) (gbytes gs).
Proof.
  induction 1 as [|[h b] t (_ & B & _) T IH]; [exact writes_nil|]. cbn [gbytes flat_map gfold fst snd]. apply (writes_bind (flush_bytes h b) (gfold flush_bytes t)); auto. now apply writes_flush.
Qed.
Lemma serialize64_bytes r xs buf : R r xs -> Forall (fun x => cok (e_c x)) xs -> let out := out64 (map ekc xs) in
  roaring64_bitmap_portable_size_in_bytes r = Some (zlen out) /\
  (zlen out <= zlen buf -> roaring64_bitmap_portable_serialize r buf = Some (out ++ skipn (length out) buf, zlen out)).
Proof.
  intros H C. cbv zeta. destruct (groups_ok _ (R_g48 r xs H C)) as (G & _). set (es := map ekc xs) in *. split.
  - unfold roaring64_bitmap_portable_size_in_bytes. rewrite (by_high32_groups r xs) by auto. rewrite gfold_size. fold es. rewrite (groups_sizes _ kf0). rewrite <- gbytes_zlen by auto. unfold out64. rewrite zlen_app, le_zlen. reflexivity.
  - intros L. unfold roaring64_bitmap_portable_serialize. rewrite (count_high32_groups r xs kf0) by auto. cbn [obind]. fold es. unfold out64 in *. set (hd := le 8 (zlen (groups kf0 es))) in *.
    rewrite zlen_app in L. assert (LH : zlen hd = 8) by (unfold hd; now rewrite le_zlen). pose proof (zlen_nonneg (gbytes (groups kf0 es))).
    pose proof (store_cursor [] buf hd ltac:(lia)) as SC. cbn [app] in SC. change (zlen []) with 0 in SC. rewrite SC. cbn [obind]. rewrite (by_high32_groups r xs) by auto. fold es.
    assert (EG : groups (fun k => k * 65536 / 65536 mod 65536) es = groups kf0 es).
    { assert (EA : forall t h b, gacc (fun k => k * 65536 / 65536 mod 65536) h b t = gacc kf0 h b t). { induction t as [|[k c] t IH]; intros h b; cbn [gacc]; auto. unfold kf0 at 1 2. rewrite Z.div_mul by lia. now rewrite !IH. }
      destruct es as [|[k c] t]; auto. cbn [groups]. rewrite EA. unfold kf0 at 2. now rewrite Z.div_mul by lia. }
    rewrite EG. destruct (writes_groups _ G hd (skipn (length hd) buf) (hd ++ skipn (length hd) buf, 8)) as (st & -> & ->).
    + unfold cursor. now rewrite LH.
    + unfold zlen in *. rewrite skipn_length. lia.
    + f_equal. f_equal. rewrite skipn_skipn', app_length. reflexivity.
Qed.

(** * Reading *)
Lemma move_R hi src : 0 <= hi < 2^32 -> forall lo dst xs, incr (map fst src) -> (forall k c, In (k, c) src -> lo <= k < 65536) -> 0 <= lo ->
  R dst xs -> (forall x, In x xs -> kv (e_key x) < hi * 65536 + lo) ->
  exists r1 ys, move_from_roaring32_offset dst src hi = Some r1 /\ R r1 (xs ++ ys) /\ map ekc ys = map (lift hi) src.
Proof.
  intros HI. induction src as [|[k c] src IH]; intros lo dst xs S G L0 H F; cbn [move_from_roaring32_offset].
  - exists dst, []. rewrite app_nil_r. auto.
  - pose proof (G k c (or_introl eq_refl)) as K. set (u := hi * 2^32 + k * 65536). assert (U : v64 u) by (unfold v64, u; lia). destruct (kv_high48 u U) as (K6 & KE).
    assert (UE : u / 65536 = hi * 65536 + k) by (unfold u; replace (hi * 2^32 + k * 65536) with ((hi * 65536 + k) * 65536) by lia; now rewrite Z.div_mul by lia). rewrite UE in KE.
    destruct (R_append dst xs (high48 u) c H K6) as (r1 & lf & x & -> & H1 & EX & EK). { intros y I. rewrite KE. apply F in I. lia. } cbn [obind].
    cbn [map fst incr] in S. destruct S as (S1 & S2). rewrite Forall_forall in S1.
    destruct (IH (k + 1) r1 (xs ++ [x])) as (r2 & ys & -> & H2 & EY); auto; [|lia| |].
    + intros k' c' I. pose proof (G k' c' (or_intror I)). specialize (S1 k' (in_map fst _ _ I)). lia.
    + intros y I. apply in_app_iff in I as [I|[<-|[]]]; [apply F in I; lia|]. rewrite EK, KE. lia.
    + exists r2, (x :: ys). rewrite <- app_assoc in H2. split; auto. split; auto. cbn [map]. rewrite EX, EY, KE. reflexivity.
Qed.
Definition below (h : Z) (xs : list ent) : Prop := forall x, In x xs -> kv (e_key x) < (h + 1) * 65536.
Lemma below_app h hi xs ys src : below h xs -> h < hi -> map ekc ys = map (lift hi) src -> inb 0 65536 (rkeys src) -> below hi (xs ++ ys).
Proof.
  intros B L E K x I. apply in_app_iff in I as [I|I]; [apply B in I; lia|]. apply (in_map ekc) in I. rewrite E in I. apply in_map_iff in I as ([k c] & EQ & I).
  unfold inb in K. rewrite Forall_forall in K. specialize (K k (in_map fst _ _ I)). unfold ekc, lift in EQ. cbn [fst snd] in EQ. injection EQ as EQ _. lia.
Qed.
Lemma keys_up b : RQuery.keys_increasing (-1) (rkeys b) = true -> incr (rkeys b).
Proof. intros H. apply RQuery.keys_increasing_spec in H. apply H. Qed.
Lemma keys_up_ok b : bok b -> RQuery.keys_increasing (-1) (rkeys b) = true.
Proof. intros (A & B & _). apply RQuery.keys_increasing_spec. cbn [incr]. split; auto. unfold inb in B. rewrite Forall_forall in *. intros x I. apply B in I. lia. Qed.
(** what the two 32-bit readers do on the same bytes *)
Lemma read32 a b m : bytes a -> m <= zlen a ->
  roaring_bitmap_portable_deserialize_size (a ++ b) m = roaring_bitmap_portable_deserialize_size a m /\
  roaring_bitmap_portable_deserialize_safe (a ++ b) m = roaring_bitmap_portable_deserialize_safe a m /\
  ((roaring_bitmap_portable_deserialize_size a m = Some 0 /\ roaring_bitmap_portable_deserialize_safe a m = Fail) \/
   exists s c, 4 <= s <= m /\ roaring_bitmap_portable_deserialize_size a m = Some s /\ roaring_bitmap_portable_deserialize_safe a m = Ok c /\ RQuery.typed c /\
     forall m', m' <= zlen a -> (m' < s -> roaring_bitmap_portable_deserialize_size a m' = Some 0 /\ roaring_bitmap_portable_deserialize_safe a m' = Fail) /\
                (s <= m' -> roaring_bitmap_portable_deserialize_size a m' = Some s /\ roaring_bitmap_portable_deserialize_safe a m' = Ok c)).
Proof.
  intros BA HM. destruct (portable_deserialize_safe_any a b m BA HM) as (E1 & E2 & O). unfold roaring_bitmap_portable_deserialize_size, roaring_bitmap_portable_deserialize_safe.
  rewrite E1, E2. split; auto. split; auto. unfold des_ok in O. destruct (ra_portable_deserialize a m) as [| |[c s]] eqn:D; [easy| |].
  - left. rewrite O. auto.
  - destruct O as (-> & S & T & _). right. exists s, c. split; auto. split; auto. split; auto. split; auto. intros m' HM'. pose proof (DerivedS.portable_deserialize_mono a m c s BA D m') as D'.
    destruct (portable_deserialize_safe_any a [] m' BA HM') as (_ & _ & O'). unfold des_ok in O'. rewrite D' in *. destruct (Z.ltb_spec m' s); (split; intros X; [|try lia]); try lia.
    + rewrite O'. auto.
    + destruct O' as (-> & _). auto.
Qed.
Lemma skip_app n (a b : list Z) : Z.of_nat n <= zlen a -> skipn n (a ++ b) = skipn n a ++ b /\ zlen (skipn n a) = zlen a - Z.of_nat n /\ (bytes a -> bytes (skipn n a)).
Proof.
  intros H. unfold zlen in *. split; [|split].
  - rewrite skipn_app. replace (n - length a)%nat with 0%nat by lia. reflexivity.
  - rewrite skipn_length. lia.
  - intros B. unfold bytes in *. rewrite Forall_forall in *. intros x I. apply B. rewrite <- (firstn_skipn n a). apply in_app_iff. now right.
Qed.
(** any bytes: only the first [maxbytes] are looked at, nothing is undefined; what is accepted
    is a tree whose containers are within their types, and a shorter limit is refused *)
Lemma des64_loop_any n : forall a b m rd prev r xs, bytes a -> m - rd <= zlen a -> -1 <= prev -> R r xs -> below prev xs -> Forall (fun x => ctyped (e_c x)) xs ->
  des64_loop n (a ++ b) m rd prev r = des64_loop n a m rd prev r /\
  size64_loop n (a ++ b) m rd = size64_loop n a m rd /\
  (exists s, size64_loop n a m rd = Some s /\ (s = 0 \/ rd <= s /\ (s <= m \/ s = rd))) /\
  match des64_loop n a m rd prev r with
  | UB => False
  | Fail => True
  | Ok (r1, s) => (exists xs1, R r1 xs1 /\ Forall (fun x => ctyped (e_c x)) xs1) /\ rd <= s /\ (s <= m \/ s = rd) /\ size64_loop n a m rd = Some s /\
      forall m', m' - rd <= zlen a -> rd <= m' ->
        des64_loop n a m' rd prev r = (if m' <? s then Fail else Ok (r1, s)) /\ size64_loop n a m' rd = Some (if m' <? s then 0 else s)
  end.
Proof.
  induction n as [|n IH]; intros a b m rd prev r xs BA HM PV H BL TY; cbn [des64_loop size64_loop].
  - split; auto. split; auto. split; [exists rd; split; auto; right; lia|]. split; [eauto|]. split; [lia|]. split; auto. split; auto. intros m' _ M. now rewrite (proj2 (Z.ltb_ge m' rd)) by lia.
  - destruct (Z.ltb_spec m (rd + 4)) as [M4|M4]. { split; auto. split; auto. split; [exists 0; auto|auto]. }
    destruct (rdv_in_range 4 a b 0) as (E & v & F); [lia|change (Z.of_nat 4) with 4; lia|]. rewrite E, F. pose proof (rdv_range 4 a 0 v BA F) as RV. change (256 ^ Z.of_nat 4) with (2^32) in RV.
    destruct (skip_app 4 a b) as (K1 & K2 & K3); [change (Z.of_nat 4) with 4; lia|]. rewrite K1. specialize (K3 BA). set (a1 := skipn 4 a) in *. change (Z.of_nat 4) with 4 in K2. cbv zeta.
    assert (G1 : guard (4 <=? zlen (a ++ b)) = Some tt) by (rewrite zlen_app; pose proof (zlen_nonneg b); now rewrite (proj2 (Z.leb_le 4 _)) by lia).
    assert (G2 : guard (4 <=? zlen a) = Some tt) by (now rewrite (proj2 (Z.leb_le 4 _)) by lia). rewrite G1, G2. cbn [obind].
    destruct (read32 a1 b (m - (rd + 4)) K3 ltac:(lia)) as (Q1 & Q2 & Q3). rewrite Q1, Q2.
    destruct Q3 as [(-> & ->)|(s & c & S & -> & -> & T & MO)].
    { cbn [obind]. change (0 =? 0) with true. cbv iota. split; [now destruct (v <=? prev)|]. split; auto. split; [exists 0; auto|]. destruct (v <=? prev); auto. }
    cbn [obind]. destruct (Z.eqb_spec s 0) as [|_]; [lia|]. destruct T as (T1 & T2).
    destruct (skip_app (Z.to_nat s) a1 b) as (J1 & J2 & J3); [lia|]. rewrite J1. specialize (J3 K3). set (a2 := skipn (Z.to_nat s) a1) in *.
    assert (SZ : size64_loop n (a2 ++ b) m (rd + 4 + s) = size64_loop n a2 m (rd + 4 + s) /\ exists z, size64_loop n a2 m (rd + 4 + s) = Some z /\ (z = 0 \/ rd + 4 + s <= z /\ (z <= m \/ z = rd + 4 + s))).
    { destruct (IH a2 b m (rd + 4 + s) (-1) roaring64_bitmap_create [] J3) as (_ & Y & Y2 & _); auto; [lia|lia|apply R_create|intros x []]. }
    destruct SZ as (SZ1 & z & SZ2 & SZ3). split; [|split; [exact SZ1|split; [exists z; split; [exact SZ2|lia]|]]].
    + destruct (v <=? prev) eqn:VP; auto. apply Z.leb_gt in VP. destruct (RQuery.keys_increasing (-1) (rkeys c)) eqn:KI; cbn [negb]; auto. apply keys_up in KI.
      destruct (move_R v c RV 0 r xs KI) as (r1 & ys & -> & H1 & EY); auto; [|lia| |].
      { intros k c0 I. unfold inb in T1. rewrite Forall_forall in T1. apply T1. now apply (in_map fst) in I. }
      { intros x I. apply BL in I. lia. }
      destruct (IH a2 b m (rd + 4 + s) v r1 (xs ++ ys) J3) as (Y & _); auto; [lia|lia|eapply below_app; eauto|]. apply Forall_app. split; auto.
      assert (Forall (fun p => ctyped (snd p)) (map ekc ys)) as TY2 by (rewrite EY, Forall_map; exact T2). rewrite Forall_map in TY2. exact TY2.
    + destruct (v <=? prev) eqn:VP; auto. pose proof VP as VP'. apply Z.leb_gt in VP. destruct (RQuery.keys_increasing (-1) (rkeys c)) eqn:KI; cbn [negb]; auto. pose proof KI as KI'. apply keys_up in KI'.
      destruct (move_R v c RV 0 r xs KI') as (r1 & ys & EM & H1 & EY); auto; [|lia| |].
      { intros k c0 I. unfold inb in T1. rewrite Forall_forall in T1. apply T1. now apply (in_map fst) in I. }
      { intros x I. apply BL in I. lia. }
      rewrite EM. assert (TY2 : Forall (fun x => ctyped (e_c x)) (xs ++ ys)).
      { apply Forall_app. split; auto. assert (Forall (fun p => ctyped (snd p)) (map ekc ys)) as TY2 by (rewrite EY, Forall_map; exact T2). rewrite Forall_map in TY2. exact TY2. }
      destruct (IH a2 b m (rd + 4 + s) v r1 (xs ++ ys) J3) as (_ & _ & _ & Y); auto; [lia|lia|eapply below_app; eauto|].
      destruct (des64_loop n a2 m (rd + 4 + s) v r1) as [| |[r2 e]]; auto. destruct Y as (Y1 & Y2 & Y3 & Y4 & Y5). split; auto. split; [lia|]. split; [lia|]. split; auto.
      intros m' HM' RM'. destruct (MO (m' - (rd + 4)) ltac:(lia)) as (MO1 & MO2).
      destruct (Z.ltb_spec m' (rd + 4)) as [X|X]. { now rewrite (proj2 (Z.ltb_lt m' e)) by lia. }
      destruct (Z_lt_dec (m' - (rd + 4)) s) as [L|L].
      * destruct (MO1 L) as (-> & ->). change (0 =? 0) with true. cbn [obind]. rewrite (proj2 (Z.ltb_lt m' e)) by lia. auto.
      * destruct (MO2 ltac:(lia)) as (-> & ->). cbn [obind]. destruct (Z.eqb_spec s 0) as [|_]; [lia|]. rewrite KI. cbn [negb]. rewrite EM. apply Y5; lia.
Qed.

(** the size reader follows the reader *)
Lemma run_read_zlen buf off n x : bytes buf -> rdv 2 buf off = Some n -> run_container_read buf off = Some x -> zlen x = n.
Proof.
  intros B E. unfold run_container_read, Serial.obind. rewrite E. destruct (rd buf (off + 2) (n * 4)) as [l|] eqn:F; [|discriminate]. cbn [option_map]. intros X.
  assert (x = pair_up (le_vals 2 (2 * Z.to_nat n) l)) as -> by congruence. pose proof (rdv_range 2 buf off n B E). rewrite (pair_up_zlen (Z.to_nat n)); [lia|]. clear. generalize (2 * Z.to_nat n)%nat. intros q. revert l. induction q; intros l; cbn [le_vals length]; auto.
Qed.
Lemma read_size_containers buf m hasrun bmo kc : bytes buf -> forall n k off rb cs s, read_containers buf m hasrun bmo kc n k off rb = Ok (cs, s) ->
  size_containers buf m hasrun bmo kc n k off rb = Ok s.
Proof.
  intros B. induction n as [|n IH]; intros k off rb cs s; cbn [read_containers size_containers]. { intros X. congruence. }
  destruct (rdv 2 buf (kc + 2 * (2 * k + 1))) as [tmp|]; [|discriminate]. destruct (read_isrun buf hasrun bmo k) as [isrun|]; [|discriminate]. cbv zeta.
  assert (N : forall c off rb, match read_containers buf m hasrun bmo kc n (k + 1) off rb with Ok (cs, rb) => Ok (c :: cs, rb) | Fail => Fail | UB => UB end = Ok (cs, s) -> size_containers buf m hasrun bmo kc n (k + 1) off rb = Ok s).
  { intros c off' rb'. destruct (read_containers buf m hasrun bmo kc n (k + 1) off' rb') as [| |[cs' s']] eqn:E; try discriminate. intros X. assert (s' = s) as -> by congruence. eapply IH; eauto. }
  destruct ((4096 <? tmp + 1) && negb isrun).
  - destruct (m <? rb + 8192); [discriminate|]. destruct (bitset_container_read (tmp + 1) buf off); [|discriminate]. apply N.
  - destruct isrun.
    + destruct (m <? rb + 2); [discriminate|]. destruct (rdv 2 buf off) as [nr|] eqn:E; [|discriminate]. destruct (m <? rb + 2 + nr * 4); [discriminate|].
      destruct (run_container_read buf off) as [x|] eqn:F; [|discriminate]. rewrite (run_read_zlen buf off nr x B E F). intros X. apply N in X. replace (off + 2 + nr * 4) with (off + (2 + 4 * nr)) by lia. exact X.
    + destruct (m <? rb + (tmp + 1) * 2); [discriminate|]. destruct (array_container_read (tmp + 1) buf off); [|discriminate]. apply N.
Qed.
Lemma read_size buf m r s : bytes buf -> ra_portable_deserialize buf m = Ok (r, s) -> ra_portable_deserialize_size buf m = Ok s.
Proof.
  intros B. unfold ra_portable_deserialize, ra_portable_deserialize_size. cbv zeta. destruct (m <? 4); [discriminate|]. destruct (rdv 4 buf 0) as [ck|]; [|discriminate].
  destruct (negb (Z.land ck 65535 =? 12347) && negb (ck =? 12346)); [discriminate|]. set (hasrun := Z.land ck 65535 =? 12347).
  assert (K : forall size off rb,
    (if size <? 0 then Fail else if 65536 <? size then Fail else
     if hasrun && (m <? rb + (if hasrun then (size + 7) / 8 else 0)) then Fail else
     if m <? rb + (if hasrun then (size + 7) / 8 else 0) + size * 4 then Fail else
     match read_keys buf (off + (if hasrun then (size + 7) / 8 else 0)) (Z.to_nat size) 0 with
     | None => UB
     | Some keys =>
       if (negb hasrun || (4 <=? size)) && (m <? (if negb hasrun || (4 <=? size) then rb + (if hasrun then (size + 7) / 8 else 0) + size * 4 + size * 4 else rb + (if hasrun then (size + 7) / 8 else 0) + size * 4)) then Fail else
       match read_containers buf m hasrun off (off + (if hasrun then (size + 7) / 8 else 0)) (Z.to_nat size) 0
          (if negb hasrun || (4 <=? size) then off + (if hasrun then (size + 7) / 8 else 0) + size * 4 + size * 4 else off + (if hasrun then (size + 7) / 8 else 0) + size * 4)
          (if negb hasrun || (4 <=? size) then rb + (if hasrun then (size + 7) / 8 else 0) + size * 4 + size * 4 else rb + (if hasrun then (size + 7) / 8 else 0) + size * 4) with
       | Ok (cs, rb) => Ok (combine keys cs, rb) | Fail => Fail | UB => UB end
     end) = Ok (r, s) ->
    (if (65536 <? size) || (size <? 0) then Fail else
     if hasrun && (m <? rb + (if hasrun then (size + 7) / 8 else 0)) then Fail else
     if m <? rb + (if hasrun then (size + 7) / 8 else 0) + size * 4 then Fail else
     if (negb hasrun || (4 <=? size)) && (m <? (if negb hasrun || (4 <=? size) then rb + (if hasrun then (size + 7) / 8 else 0) + size * 4 + size * 4 else rb + (if hasrun then (size + 7) / 8 else 0) + size * 4)) then Fail else
     size_containers buf m hasrun off (off + (if hasrun then (size + 7) / 8 else 0)) (Z.to_nat size) 0
        (if negb hasrun || (4 <=? size) then off + (if hasrun then (size + 7) / 8 else 0) + size * 4 + size * 4 else off + (if hasrun then (size + 7) / 8 else 0) + size * 4)
        (if negb hasrun || (4 <=? size) then rb + (if hasrun then (size + 7) / 8 else 0) + size * 4 + size * 4 else rb + (if hasrun then (size + 7) / 8 else 0) + size * 4)) = Ok s).
  { intros size off rb. destruct (size <? 0); [discriminate|]. destruct (65536 <? size); [discriminate|]. cbn [orb].
    destruct (hasrun && _); [discriminate|]. destruct (m <? _); [discriminate|]. destruct (read_keys buf _ (Z.to_nat size) 0) as [keys|]; [|discriminate].
    destruct ((negb hasrun || (4 <=? size)) && _); [discriminate|].
    match goal with |- match ?X with _ => _ end = _ -> _ => destruct X as [| |[cs s']] eqn:E end; try discriminate. intros X. assert (s' = s) as -> by congruence.
    eapply read_size_containers; eauto. }
  destruct hasrun.
  - apply K.
  - destruct (m <? 4 + 4); [discriminate|]. destruct (rdv 4 buf 4) as [v|]; [|discriminate]. apply K.
Qed.
(** ** Round trip *)
Definition part_of32 (g : Z * bitmap) : Prop := 0 <= fst g < 2^32 /\ bok (snd g).
Lemma group_part gs : Forall group_ok gs -> Forall part_of32 gs.
Proof. apply Forall_impl. intros g (A & B & _). split; auto. Qed.
Lemma des64_loop_back gs : Forall part_of32 gs -> forall post m rd prev r xs, incr (map fst gs) -> (forall h, In h (map fst gs) -> prev < h) -> bytes post -> rd + zlen (gbytes gs) <= m ->
  R r xs -> below prev xs -> exists r1 ys, des64_loop (length gs) (gbytes gs ++ post) m rd prev r = Ok (r1, rd + zlen (gbytes gs)) /\ R r1 (xs ++ ys) /\ map ekc ys = ungroup gs /\
  size64_loop (length gs) (gbytes gs ++ post) m rd = Some (rd + zlen (gbytes gs)).
Proof.
  induction 1 as [|[h b] t (HH & B) T IH]; intros post m rd prev r xs S PV BP HM H BL; cbn [length des64_loop size64_loop].
  - exists r, []. rewrite app_nil_r. cbn [gbytes flat_map]. rewrite zlen_nil, Z.add_0_r. auto.
  - assert (G : guard (4 <=? zlen (gbytes ((h, b) :: t) ++ post)) = Some tt).
    { cbn [gbytes flat_map fst snd]. rewrite !zlen_app, le_zlen. fold (gbytes t). pose proof (zlen_nonneg (gbytes t)). pose proof (zlen_nonneg (pbytes b)). pose proof (zlen_nonneg post). now rewrite (proj2 (Z.leb_le 4 _)) by lia. }
    rewrite G. clear G. cbn [obind]. cbn [fst snd] in *. cbn [gbytes flat_map fst snd] in *. fold (gbytes t) in *. rewrite !zlen_app, le_zlen in *. change (Z.of_nat 4) with 4 in *. pose proof (zlen_nonneg (gbytes t)) as N1. pose proof (zlen_nonneg (pbytes b)) as N2.
    destruct (group_typed b B) as (CT & ZB). pose proof (pbytes_zlen b CT ZB) as PZ.
    rewrite (proj2 (Z.ltb_ge m (rd + 4))) by lia. rewrite <- !app_assoc.
    assert (RV : rdv 4 (le 4 h ++ pbytes b ++ gbytes t ++ post) 0 = Some h). { apply (rdv_le 4 [] h); [reflexivity|]. change (256 ^ Z.of_nat 4) with (2^32). exact HH. } rewrite RV. cbv zeta.
    rewrite (skipn_app_l 4) by (now rewrite le_length). rewrite (proj2 (Z.leb_gt h prev)) by (apply PV; now left).
    pose proof (portable_round_trip b (gbytes t ++ post) (m - (rd + 4)) B ltac:(lia)) as RT.
    assert (BB : bytes (pbytes b ++ gbytes t ++ post)) by (apply bytes_app; split; [apply pbytes_bytes|apply bytes_app; split; [apply gbytes_bytes|exact BP]]).
    pose proof (read_size (pbytes b ++ gbytes t ++ post) (m - (rd + 4)) _ _ BB RT) as RS.
    unfold roaring_bitmap_portable_deserialize_size, roaring_bitmap_portable_deserialize_safe. rewrite RS, RT. cbn [obind].
    assert (PP : 4 <= ra_portable_size_in_bytes b).
    { rewrite <- PZ. unfold pbytes, head_bytes. rewrite !zlen_app. pose proof (zlen_nonneg (keycards b)). pose proof (zlen_nonneg (offset_bytes b)). pose proof (zlen_nonneg (payloads b)). destruct (ra_has_run_container b); rewrite zlen_app, !le_zlen; pose proof (zlen_nonneg (run_flags b)); lia. }
    destruct (Z.eqb_spec (ra_portable_size_in_bytes b) 0) as [|_]; [lia|]. rewrite (keys_up_ok b B). cbn [negb].
    destruct (move_R h b HH 0 r xs) as (r1 & ys & -> & H1 & EY); [apply B| |lia|exact H| |].
    { intros k c I. destruct B as (_ & B2 & _). unfold inb in B2. rewrite Forall_forall in B2. apply B2. now apply (in_map fst) in I. }
    { intros x I. apply BL in I. specialize (PV h (or_introl eq_refl)). lia. }
    rewrite <- PZ. rewrite (skipn_app_l (Z.to_nat (zlen (pbytes b)))) by (unfold zlen; lia). cbn [map fst incr] in S. destruct S as (S1 & S2). rewrite Forall_forall in S1.
    destruct (IH post m (rd + 4 + zlen (pbytes b)) h r1 (xs ++ ys)) as (r2 & zs & E1 & H2 & EZ & E2); auto; [lia|eapply below_app; eauto; [apply PV; now left|apply B]|].
    exists r2, (ys ++ zs). rewrite E1, E2. replace (rd + 4 + zlen (pbytes b) + zlen (gbytes t)) with (rd + (4 + zlen (pbytes b) + zlen (gbytes t))) by lia.
    rewrite <- app_assoc in H2. split; auto. split; auto. split; auto. rewrite map_app, EY, EZ. reflexivity.
Qed.
Lemma groups_len es : g48 0 es -> zlen (groups kf0 es) <= 2^32.
Proof.
  intros G. destruct (groups_ok es G) as (A & B). rewrite <- (zlen_map fst). pose proof (incr_inb_len 0 (2^32) (map fst (groups kf0 es)) B) as X. rewrite Z.sub_0_r in X. apply X; [|lia].
  unfold inb. rewrite Forall_map. eapply Forall_impl; [|exact A]. intros g (K & _). exact K.
Qed.
(** bytes in the format, whoever wrote them *)
Lemma des64_groups gs post m : Forall part_of32 gs -> incr (map fst gs) -> zlen gs < 2^32 -> bytes post -> 8 + zlen (gbytes gs) <= m ->
  exists r1 ys, des64 (le 8 (zlen gs) ++ gbytes gs ++ post) m = Ok (r1, 8 + zlen (gbytes gs)) /\ R r1 ys /\ map ekc ys = ungroup gs /\
  roaring64_bitmap_portable_deserialize_size (le 8 (zlen gs) ++ gbytes gs ++ post) m = Some (8 + zlen (gbytes gs)).
Proof.
  intros G S L BP HM. pose proof (zlen_nonneg (gbytes gs)) as N1. pose proof (zlen_nonneg gs) as N2.
  unfold des64, roaring64_bitmap_portable_deserialize_size. rewrite (proj2 (Z.ltb_ge m 8)) by lia.
  assert (RV : rdv 8 (le 8 (zlen gs) ++ gbytes gs ++ post) 0 = Some (zlen gs)). { apply (rdv_le 8 []); [reflexivity|]. change (256 ^ Z.of_nat 8) with (2^64). lia. } rewrite RV. cbn [obind].
  rewrite (proj2 (Z.ltb_ge (2^32 - 1) _)) by lia. rewrite (skipn_app_l 8) by (now rewrite le_length). replace (Z.to_nat (zlen gs)) with (length gs) by (unfold zlen; lia).
  destruct (des64_loop_back _ G post m 8 (-1) roaring64_bitmap_create [] S) as (r1 & ys & E1 & H1 & EY & E2); auto; [|apply R_create|intros x []|].
  { intros h I. rewrite Forall_forall in G. apply in_map_iff in I as (g & <- & I). apply G in I as ((I & _) & _). lia. }
  exists r1, ys. rewrite E1, E2. auto.
Qed.
Lemma des64_back r xs post m : R r xs -> Forall (fun x => cok (e_c x)) xs -> zlen (groups kf0 (map ekc xs)) < 2^32 -> bytes post -> zlen (out64 (map ekc xs)) <= m ->
  exists r1 ys, des64 (out64 (map ekc xs) ++ post) m = Ok (r1, zlen (out64 (map ekc xs))) /\ R r1 ys /\ map ekc ys = map ekc xs /\
  roaring64_bitmap_portable_deserialize_size (out64 (map ekc xs) ++ post) m = Some (zlen (out64 (map ekc xs))).
Proof.
  intros H C L BP HM. destruct (groups_ok _ (R_g48 r xs H C)) as (G & S). set (es := map ekc xs) in *. unfold out64 in *. rewrite zlen_app, le_zlen in *. change (Z.of_nat 8) with 8 in *. rewrite <- app_assoc.
  destruct (des64_groups (groups kf0 es) post m (group_part _ G) S L BP HM) as (r1 & ys & E1 & E2 & E3 & E4). exists r1, ys. rewrite ungroup_groups in E3. auto.
Qed.
(** a count of 2^32 is refused *)
Lemma des64_full r xs post m : R r xs -> Forall (fun x => cok (e_c x)) xs -> zlen (groups kf0 (map ekc xs)) = 2^32 -> des64 (out64 (map ekc xs) ++ post) m = Fail.
Proof.
  intros H C L. unfold des64, out64. destruct (m <? 8); auto. rewrite <- app_assoc. rewrite L. assert (RV : rdv 8 (le 8 (2^32) ++ gbytes (groups kf0 (map ekc xs)) ++ post) 0 = Some (2^32)). { apply (rdv_le 8 []); [reflexivity|]. change (256 ^ Z.of_nat 8) with (2^64). lia. }
  rewrite RV. reflexivity.
Qed.
Lemma des64_any a b m : bytes a -> m <= zlen a ->
  des64 (a ++ b) m = des64 a m /\ roaring64_bitmap_portable_deserialize_size (a ++ b) m = roaring64_bitmap_portable_deserialize_size a m /\
  (exists s, roaring64_bitmap_portable_deserialize_size a m = Some s /\ (s = 0 \/ 8 <= s <= m)) /\
  match des64 a m with
  | UB => False
  | Fail => True
  | Ok (r1, s) => (exists xs, R r1 xs /\ Forall (fun x => ctyped (e_c x)) xs) /\ 8 <= s <= m /\ roaring64_bitmap_portable_deserialize_size a m = Some s /\
      forall m', m' <= zlen a -> des64 a m' = (if m' <? s then Fail else Ok (r1, s)) /\ roaring64_bitmap_portable_deserialize_size a m' = Some (if m' <? s then 0 else s)
  end.
Proof.
  intros BA HM. unfold des64, roaring64_bitmap_portable_deserialize_size. destruct (Z.ltb_spec m 8) as [M|M]. { split; auto. split; auto. split; [exists 0; auto|auto]. }
  destruct (rdv_in_range 8 a b 0) as (E & v & F); [lia|change (Z.of_nat 8) with 8; lia|]. rewrite E, F. cbn [obind]. destruct (2^32 - 1 <? v) eqn:V. { split; auto. split; auto. split; [exists 0; auto|auto]. }
  destruct (skip_app 8 a b) as (K1 & K2 & K3); [change (Z.of_nat 8) with 8; lia|]. rewrite K1. specialize (K3 BA). change (Z.of_nat 8) with 8 in K2.
  destruct (des64_loop_any (Z.to_nat v) (skipn 8 a) b m 8 (-1) roaring64_bitmap_create [] K3) as (A1 & A2 & (s & A3 & A4) & A5); [lia|lia|apply R_create|intros x []|constructor|].
  split; auto. split; auto. split; [exists s; split; auto; lia|]. destruct (des64_loop (Z.to_nat v) (skipn 8 a) m 8 (-1) roaring64_bitmap_create) as [| |[r1 e]]; auto.
  destruct A5 as (B1 & B2 & B3 & B4 & B5). split; auto. split; [lia|]. split; auto. intros m' HM'. destruct (Z.ltb_spec m' 8) as [X|X]. { rewrite (proj2 (Z.ltb_lt m' e)) by lia. auto. }
  apply B5; lia.
Qed.
