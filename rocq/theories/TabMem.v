(** TabMem: the table of the chunks of a bitmap (roaring_array_t) in the memory it lives
    in: one allocation holding the pointers, the keys and the type codes
    (src/roaring_array.c:42-200, 348-424; include/roaring/roaring_array.h).

    A block is a list of bytes; a byte never written is [None], and reading it has no
    result, as has an access outside the block.  Allocation succeeds.  Pointers to
    containers are numbers below 2^64; the containers themselves are not in this model
    (functions that edit them are parameters of the loops of roaring.c:249-337). *)
From Coq Require Import ZArith List Bool Lia Sorted.
From Verif Require Import Base ArrayUtil Bytes SpecTab.
Import ListNotations.
Local Open Scope Z_scope.

Notation "'do' x <- e ; f" := (match e with Some x => f | None => None end) (at level 200, x pattern, e at level 100, f at level 200).
(** ** Code *)
Definition block := list (option Z).
Fixpoint all_some (l : block) : option (list Z) :=
  match l with [] => Some [] | Some b :: t => do r <- all_some t; Some (b :: r) | None :: _ => None end.
Definition inside (m : block) (off n : Z) : bool := (0 <=? off) && (0 <=? n) && (off + n <=? zlen m).
Definition cut {A} (l : list A) (off n : Z) : list A := firstn (Z.to_nat n) (skipn (Z.to_nat off) l).
Definition paste {A} (l : list A) (off : Z) (x : list A) : list A := firstn (Z.to_nat off) l ++ x ++ skipn (Z.to_nat (off + zlen x)) l.
(** a load and a store of w bytes *)
Definition ld (m : block) (off : Z) (w : nat) : option Z :=
  if inside m off (Z.of_nat w) then do l <- all_some (cut m off (Z.of_nat w)); Some (le_val l) else None.
Definition st (m : block) (off : Z) (w : nat) (v : Z) : option block :=
  if inside m off (Z.of_nat w) then Some (paste m off (map Some (le w v))) else None.
(** memmove/memcpy of n bytes from src (which may be the same block) *)
Definition mv (m : block) (dst : Z) (src : block) (from n : Z) : option block :=
  if n =? 0 then Some m else if inside m dst n && inside src from n then Some (paste m dst (cut src from n)) else None.
(** roaring_types.h:53-60: the allocation [containers] points to, the offsets of [keys]
    and [typecodes] in it, allocation_size and size *)
Record table := Tab { blk : block; keys_at : Z; kinds_at : Z; alloc : Z; tsize : Z }.
Definition with_blk (ra : table) (m : block) : table := Tab m (keys_at ra) (kinds_at ra) (alloc ra) (tsize ra).
Definition with_size (ra : table) (n : Z) : table := Tab (blk ra) (keys_at ra) (kinds_at ra) (alloc ra) n.
(** containers[i], keys[i], typecodes[i] *)
Definition ptr (ra : table) (i : Z) : option Z := ld (blk ra) (8 * i) 8.
Definition key (ra : table) (i : Z) : option Z := ld (blk ra) (keys_at ra + 2 * i) 2.
Definition kind (ra : table) (i : Z) : option Z := ld (blk ra) (kinds_at ra + i) 1.
Definition set_ptr (ra : table) (i v : Z) : option table := do m <- st (blk ra) (8 * i) 8 v; Some (with_blk ra m).
Definition set_key (ra : table) (i v : Z) : option table := do m <- st (blk ra) (keys_at ra + 2 * i) 2 v; Some (with_blk ra m).
Definition set_kind (ra : table) (i v : Z) : option table := do m <- st (blk ra) (kinds_at ra + i) 1 v; Some (with_blk ra m).
(** memmove of n entries inside one of the three arrays *)
Definition mv_ptrs (ra : table) (dst from n : Z) : option table := do m <- mv (blk ra) (8 * dst) (blk ra) (8 * from) (8 * n); Some (with_blk ra m).
Definition mv_keys (ra : table) (dst from n : Z) : option table :=
  do m <- mv (blk ra) (keys_at ra + 2 * dst) (blk ra) (keys_at ra + 2 * from) (2 * n); Some (with_blk ra m).
Definition mv_kinds (ra : table) (dst from n : Z) : option table :=
  do m <- mv (blk ra) (kinds_at ra + dst) (blk ra) (kinds_at ra + from) n; Some (with_blk ra m).
(** roaring_array.c:42-78 *)
Definition realloc_array (ra : table) (new_capacity : Z) : option table :=
  if new_capacity =? 0 then Some (Tab [] 0 0 0 (tsize ra))
  else
    let memoryneeded := new_capacity * (2 + 8 + 1) in
    let bigalloc := repeat None (Z.to_nat memoryneeded) in
    let newkeys := 8 * new_capacity in
    let newtypecodes := newkeys + 2 * new_capacity in
    if newtypecodes + new_capacity =? memoryneeded then
      do m <- (if 0 <? tsize ra then
                 do m1 <- mv bigalloc 0 (blk ra) 0 (8 * tsize ra);
                 do m2 <- mv m1 newkeys (blk ra) (keys_at ra) (2 * tsize ra);
                 mv m2 newtypecodes (blk ra) (kinds_at ra) (tsize ra)
               else Some bigalloc);
      Some (Tab m newkeys newtypecodes new_capacity (tsize ra))
    else None.
(** 113-124 *)
Definition ra_init : table := Tab [] 0 0 0 0.
(** 80-101 *)
Definition ra_init_with_capacity (cap : Z) : table :=
  let cap := if 65536 <? cap then 65536 else cap in
  if 0 <? cap then Tab (repeat None (Z.to_nat (cap * (2 + 8 + 1)))) (8 * cap) (8 * cap + 2 * cap) cap 0 else ra_init.
(** 103-111; the new table and the bytes saved *)
Definition ra_shrink_to_fit (ra : table) : option (table * Z) :=
  let savings := (alloc ra - tsize ra) * (2 + 8 + 1) in
  do r <- realloc_array ra (tsize ra);
  Some (Tab (blk r) (keys_at r) (kinds_at r) (tsize r) (tsize r), savings).
(** 196-210 *)
Definition extend_array (ra : table) (k : Z) : option table :=
  let desired_size := tsize ra + k in
  if desired_size <=? 65536 then
    if alloc ra <? desired_size then
      let new_capacity := if tsize ra <? 1024 then 2 * desired_size else 5 * desired_size / 4 in
      realloc_array ra (if 65536 <? new_capacity then 65536 else new_capacity)
    else Some ra
  else None.
(** roaring_array.h:188-197 ra_replace_key_and_container_at_index, with its assertion *)
Definition ra_replace (ra : table) (i : Z) (s : slot) : option table :=
  if i <? tsize ra then do r <- set_key ra i (s_key s); do r <- set_ptr r i (s_ptr s); set_kind r i (s_kind s) else None.
(** roaring_array.h:160-165 ra_set_container_at_index *)
Definition ra_set (ra : table) (i p t : Z) : option table :=
  if i <? tsize ra then do r <- set_ptr ra i p; set_kind r i t else None.
(** roaring_array.c:212-221 *)
Definition ra_append (ra : table) (s : slot) : option table :=
  do r <- extend_array ra 1;
  let pos := tsize r in
  do r <- set_key r pos (s_key s); do r <- set_ptr r pos (s_ptr s); do r <- set_kind r pos (s_kind s);
  Some (with_size r (tsize r + 1)).
(** 348-362 *)
Definition ra_insert_new_key_value_at (ra : table) (i : Z) (s : slot) : option table :=
  do r <- extend_array ra 1;
  do r <- mv_keys r (i + 1) i (tsize r - i);
  do r <- mv_ptrs r (i + 1) i (tsize r - i);
  do r <- mv_kinds r (i + 1) i (tsize r - i);
  do r <- set_key r i (s_key s); do r <- set_ptr r i (s_ptr s); do r <- set_kind r i (s_kind s);
  Some (with_size r (tsize r + 1)).
(** 369-372 *)
Definition ra_downsize (ra : table) (n : Z) : option table := if n <=? tsize ra then Some (with_size ra n) else None.
(** 374-382 *)
Definition ra_remove_at_index (ra : table) (i : Z) : option table :=
  do r <- mv_ptrs ra i (i + 1) (tsize ra - i - 1);
  do r <- mv_keys r i (i + 1) (tsize ra - i - 1);
  do r <- mv_kinds r i (i + 1) (tsize ra - i - 1);
  Some (with_size r (tsize r - 1)).
(** 394-410 *)
Definition ra_copy_range (ra : table) (begin end_ new_begin : Z) : option table :=
  if (begin <=? end_) && (new_begin <? begin) then
    let range := end_ - begin in
    do r <- mv_ptrs ra new_begin begin range;
    do r <- mv_keys r new_begin begin range;
    mv_kinds r new_begin begin range
  else None.
(** 412-424 *)
Definition ra_shift_tail (ra : table) (count distance : Z) : option table :=
  do r <- (if 0 <? distance then extend_array ra distance else Some ra);
  let srcpos := tsize r - count in
  let dstpos := srcpos + distance in
  do r <- mv_keys r dstpos srcpos count;
  do r <- mv_ptrs r dstpos srcpos count;
  do r <- mv_kinds r dstpos srcpos count;
  Some (with_size r (tsize r + distance)).
(** array_util.h:33-49 binarySearch over the keys *)
Fixpoint search (fuel : nat) (ra : table) (low high k : Z) : option Z :=
  match fuel with
  | O => None
  | S f =>
    if low <=? high then
      let middleIndex := Z.shiftr (low + high) 1 in
      do middleValue <- key ra middleIndex;
      if middleValue <? k then search f ra (middleIndex + 1) high k
      else if k <? middleValue then search f ra low (middleIndex - 1) k
      else Some middleIndex
    else Some (- (low + 1))
  end.
Definition binarySearch_keys (ra : table) (n k : Z) : option Z := search (S (Z.to_nat n)) ra 0 (n - 1) k.
(** roaring_array.h:79-82 ra_get_index *)
Definition ra_get_index (ra : table) (k : Z) : option Z :=
  if tsize ra =? 0 then Some (tsize ra - 1)
  else do last <- key ra (tsize ra - 1); if last =? k then Some (tsize ra - 1) else binarySearch_keys ra (tsize ra) k.
(** array_util.h:107-112, 118-127 count_less, count_greater *)
Definition count_less_keys (ra : table) (n k : Z) : option Z :=
  if n =? 0 then Some 0 else do pos <- binarySearch_keys ra n k; Some (if 0 <=? pos then pos else - (pos + 1)).
Definition count_greater_keys (ra : table) (n k : Z) : option Z :=
  if n =? 0 then Some 0 else do pos <- binarySearch_keys ra n k; Some (if 0 <=? pos then n - (pos + 1) else n - (- pos - 1)).
(** roaring.c:249-298 roaring_bitmap_add_range_closed: the loop from max_key down; [g] is
    what container_add_range and container_from_range return *)
Fixpoint fill_loop (n : nat) (ra : table) (k src dst : Z) (g : Z -> option (Z * Z) -> Z * Z) : option table :=
  match n with
  | O => Some ra
  | S n' =>
    do hit <- (if 0 <=? src then do ks <- key ra src; Some (ks =? k) else Some false);
    do x <- (if hit then do p <- ptr ra src; do t <- kind ra src; Some (g k (Some (p, t)), src - 1) else Some (g k None, src));
    let '((p, t), src) := x in
    do r <- ra_replace ra dst (Slot k p t);
    fill_loop n' r (k - 1) src (dst - 1) g
  end.
Definition add_range_closed (ra : table) (min_key max_key : Z) (g : Z -> option (Z * Z) -> Z * Z) : option table :=
  let num_required_containers := max_key - min_key + 1 in
  do suffix_length <- count_greater_keys ra (tsize ra) max_key;
  do prefix_length <- count_less_keys ra (tsize ra - suffix_length) min_key;
  let common_length := tsize ra - prefix_length - suffix_length in
  do r <- (if common_length <? num_required_containers then ra_shift_tail ra suffix_length (num_required_containers - common_length) else Some ra);
  fill_loop (Z.to_nat num_required_containers) r max_key (prefix_length + common_length - 1) (tsize r - suffix_length - 1) g.
(** roaring.c:300-337 roaring_bitmap_remove_range_closed *)
Fixpoint drop_loop (fuel : nat) (ra : table) (src dst max_key : Z) (g : Z -> Z * Z -> option (Z * Z)) : option (table * Z * Z) :=
  match fuel with
  | O => None
  | S f =>
    if src <? tsize ra then
      do k <- key ra src;
      if k <=? max_key then
        do p <- ptr ra src; do t <- kind ra src;
        match g k (p, t) with
        | Some (p', t') =>
          do k' <- key ra src;
          do r <- ra_replace ra dst (Slot k' p' t');
          drop_loop f r (src + 1) (dst + 1) max_key g
        | None => drop_loop f ra (src + 1) dst max_key g
        end
      else Some (ra, src, dst)
    else Some (ra, src, dst)
  end.
Definition remove_range_closed (ra : table) (min_key max_key : Z) (g : Z -> Z * Z -> option (Z * Z)) : option table :=
  do src <- count_less_keys ra (tsize ra) min_key;
  do x <- drop_loop (S (Z.to_nat (tsize ra))) ra src src max_key g;
  let '(r, src, dst) := x in
  if dst <? src then ra_shift_tail r (tsize r - src) (dst - src) else Some r.
Definition tab_step (c : tcmd) (ra : table) : option table :=
  match c with
  | TAppend s => ra_append ra s
  | TInsert i s => ra_insert_new_key_value_at ra i s
  | TRemove i => ra_remove_at_index ra i
  | TReplace i s => ra_replace ra i s
  | TSet i p t => ra_set ra i p t
  | TDownsize n => ra_downsize ra n
  (* as in roaring.c:1311-1319 *)
  | TSlide b e n => do r <- ra_copy_range ra b e n; ra_downsize r (n + (e - b))
  | TShrink => do x <- ra_shrink_to_fit ra; Some (fst x)
  | TFill lo hi g => add_range_closed ra lo hi g
  | TDrop lo hi g => remove_range_closed ra lo hi g
  end.
Fixpoint tab_run (p : list tcmd) (ra : table) : option table :=
  match p with [] => Some ra | c :: p' => do r <- tab_step c ra; tab_run p' r end.

(** ** Proofs: blocks made of chunks of the same size *)
Definition chunks (w : Z) (L : list block) : Prop := Forall (fun c => zlen c = w) L.
Lemma chunks_app w a b : chunks w (a ++ b) <-> chunks w a /\ chunks w b. Proof. apply Forall_app. Qed.
Lemma zlen_concat w L : chunks w L -> zlen (concat L) = w * zlen L.
Proof. intros H. induction H as [|c L E H IH]; [unfold zlen; cbn [length concat]; lia|]. cbn [concat]. rewrite zlen_app, zlen_cons. lia. Qed.
Lemma split3 {A} (l : list A) i n : 0 <= i -> 0 <= n -> i + n <= zlen l -> exists a x b, l = a ++ x ++ b /\ zlen a = i /\ zlen x = n.
Proof.
  intros I N H. unfold zlen in *. exists (firstn (Z.to_nat i) l), (firstn (Z.to_nat n) (skipn (Z.to_nat i) l)), (skipn (Z.to_nat n) (skipn (Z.to_nat i) l)). rewrite !firstn_skipn. split; auto.
  rewrite !firstn_length, skipn_length. lia.
Qed.
Lemma paste_app {A} (a c b x : list A) i : zlen a = i -> zlen c = zlen x -> paste (a ++ c ++ b) i x = a ++ x ++ b.
Proof.
  intros I C. unfold paste, zlen in *. rewrite firstn_app_l by lia. f_equal. f_equal. rewrite app_assoc. apply skipn_app_l. rewrite app_length. lia.
Qed.
Lemma cut_app {A} (a x b : list A) i n : zlen a = i -> zlen x = n -> cut (a ++ x ++ b) i n = x.
Proof. intros I N. unfold cut, zlen in *. rewrite skipn_app_l by lia. apply firstn_app_l. lia. Qed.
Lemma paste_region w A B L X a d : zlen A = a -> chunks w L -> chunks w X -> 0 <= d -> d + zlen X <= zlen L ->
  paste (A ++ concat L ++ B) (a + w * d) (concat X) = A ++ concat (paste L d X) ++ B.
Proof.
  intros EA CL CX D H. destruct (split3 L d (zlen X) D (zlen_nonneg X) H) as (L1&L2&L3&->&E1&E2). apply chunks_app in CL as (C1&CL). apply chunks_app in CL as (C2&C3).
  rewrite (paste_app L1 L2 L3 X d) by auto. rewrite !concat_app. rewrite <- (app_assoc (concat L1)). rewrite (app_assoc A). rewrite <- (app_assoc (concat L2)). rewrite paste_app.
  - now rewrite <- !app_assoc.
  - rewrite zlen_app, (zlen_concat w) by auto. lia.
  - rewrite !(zlen_concat w) by auto. lia.
Qed.
Lemma cut_region w A B L a s n : zlen A = a -> chunks w L -> 0 <= s -> 0 <= n -> s + n <= zlen L -> cut (A ++ concat L ++ B) (a + w * s) (w * n) = concat (cut L s n).
Proof.
  intros EA CL S N H. destruct (split3 L s n S N H) as (L1&L2&L3&->&E1&E2). apply chunks_app in CL as (C1&CL). apply chunks_app in CL as (C2&C3).
  rewrite (cut_app L1 L2 L3) by auto. rewrite !concat_app. rewrite <- (app_assoc (concat L1)). rewrite (app_assoc A). rewrite <- (app_assoc (concat L2)). apply cut_app.
  - rewrite zlen_app, (zlen_concat w) by auto. lia.
  - rewrite (zlen_concat w) by auto. lia.
Qed.
Lemma Forall_fst {A} (P : A -> Prop) n l : Forall P l -> Forall P (firstn n l).
Proof. intros H. rewrite <- (firstn_skipn n l) in H. now apply Forall_app in H. Qed.
Lemma Forall_rest {A} (P : A -> Prop) n l : Forall P l -> Forall P (skipn n l).
Proof. intros H. rewrite <- (firstn_skipn n l) in H. now apply Forall_app in H. Qed.
Lemma chunks_cut w L s n : chunks w L -> chunks w (cut L s n).
Proof. unfold cut, chunks. intros H. apply Forall_fst, Forall_rest. exact H. Qed.
Lemma chunks_paste w L s X : chunks w L -> chunks w X -> chunks w (paste L s X).
Proof. unfold paste, chunks. intros H HX. apply Forall_app. split; [now apply Forall_fst|]. apply Forall_app. split; auto. now apply Forall_rest. Qed.
Lemma zlen_cut {A} (l : list A) s n : 0 <= s -> 0 <= n -> s + n <= zlen l -> zlen (cut l s n) = n.
Proof. intros. unfold cut, zlen in *. rewrite firstn_length, skipn_length. lia. Qed.
Lemma zlen_paste {A} (l : list A) s x : 0 <= s -> s + zlen x <= zlen l -> zlen (paste l s x) = zlen l.
Proof. intros. unfold paste, zlen in *. rewrite !app_length, firstn_length, skipn_length. lia. Qed.
(** memmove and stores inside a region *)
Lemma mv_region w A B L a src A' B' L' a' d s n : 0 < w -> zlen A = a -> zlen A' = a' -> chunks w L -> chunks w L' -> src = A' ++ concat L' ++ B' -> 0 <= d -> 0 <= s -> 0 <= n -> d + n <= zlen L -> s + n <= zlen L' ->
  mv (A ++ concat L ++ B) (a + w * d) src (a' + w * s) (w * n) = Some (A ++ concat (paste L d (cut L' s n)) ++ B).
Proof.
  intros W EA EA' CL CL' -> D S N H H'. pose proof (zlen_nonneg A). pose proof (zlen_nonneg A'). pose proof (zlen_nonneg B). pose proof (zlen_nonneg B'). unfold mv. destruct (Z.eqb_spec (w * n) 0) as [E|E].
  - assert (n = 0) by nia. subst n. do 4 f_equal. unfold cut, paste. cbn [Z.to_nat firstn]. rewrite app_nil_l. change (zlen (@nil block)) with 0. rewrite Z.add_0_r. now rewrite firstn_skipn.
  - assert (I : forall X Y R (x : Z) i, zlen X = x -> chunks w R -> 0 <= i -> i + n <= zlen R -> 0 <= zlen Y -> inside (X ++ concat R ++ Y) (x + w * i) (w * n) = true).
    { intros X Y R x i EX CR I0 I1 Y0. pose proof (zlen_nonneg X). unfold inside. rewrite !zlen_app, (zlen_concat w R) by auto. nia. }
    rewrite !I by auto. cbn [andb]. rewrite (cut_region w) by auto. rewrite (paste_region w) by (auto using chunks_cut; rewrite zlen_cut by auto; lia). reflexivity.
Qed.
Definition enc (w : nat) (v : Z) : block := map Some (le w v).
Lemma enc_zlen w v : zlen (enc w v) = Z.of_nat w. Proof. unfold enc. rewrite zlen_map. apply le_zlen. Qed.
Lemma st_region w A B L a i v : zlen A = a -> chunks (Z.of_nat w) L -> 0 <= i < zlen L ->
  st (A ++ concat L ++ B) (a + Z.of_nat w * i) w v = Some (A ++ concat (paste L i [enc w v]) ++ B).
Proof.
  intros EA CL I. pose proof (zlen_nonneg A). pose proof (zlen_nonneg B). unfold st. replace (inside _ _ _) with true.
  2:{ symmetry. unfold inside. rewrite !zlen_app, (zlen_concat (Z.of_nat w) L) by auto. nia. }
  f_equal. rewrite <- (paste_region (Z.of_nat w) A B L [enc w v] a i); auto; [cbn [concat]; now rewrite app_nil_r|repeat constructor; apply enc_zlen|lia|change (zlen [enc w v]) with 1; lia].
Qed.
Lemma all_some_map l : all_some (map Some l) = Some l.
Proof. induction l as [|x t IH]; cbn; auto. now rewrite IH. Qed.
Lemma ld_region w A B L1 v L2 a i : zlen A = a -> chunks (Z.of_nat w) L1 -> zlen L1 = i -> 0 <= v < 256 ^ Z.of_nat w ->
  ld (A ++ concat (L1 ++ enc w v :: L2) ++ B) (a + Z.of_nat w * i) w = Some v.
Proof.
  intros EA C I V. pose proof (zlen_nonneg A). pose proof (zlen_nonneg B). pose proof (zlen_nonneg L1). pose proof (zlen_nonneg (concat L2)). rewrite concat_app. cbn [concat].
  replace (A ++ (concat L1 ++ enc w v ++ concat L2) ++ B) with ((A ++ concat L1) ++ enc w v ++ (concat L2 ++ B)) by now rewrite <- !app_assoc.
  assert (EL : zlen (A ++ concat L1) = a + Z.of_nat w * i) by (rewrite zlen_app, (zlen_concat (Z.of_nat w) L1) by auto; lia). unfold ld.
  replace (inside _ _ _) with true. 2:{ symmetry. unfold inside. rewrite zlen_app, EL, zlen_app, enc_zlen, zlen_app. nia. }
  rewrite cut_app by (auto; apply enc_zlen). unfold enc. rewrite all_some_map. now rewrite le_val_in.
Qed.

(** ** The three arrays of a table *)
Definition rep (ra : table) (C K Y : list block) : Prop :=
  blk ra = concat C ++ concat K ++ concat Y /\ (chunks 8 C /\ chunks 2 K /\ chunks 1 Y) /\
  (zlen C = alloc ra /\ zlen K = alloc ra /\ zlen Y = alloc ra) /\ keys_at ra = 8 * alloc ra /\ kinds_at ra = 10 * alloc ra.
Lemma rep_ptrs ra C K Y : rep ra C K Y -> blk ra = [] ++ concat C ++ (concat K ++ concat Y). Proof. now intros (E&_). Qed.
Lemma rep_keys ra C K Y : rep ra C K Y -> blk ra = concat C ++ concat K ++ concat Y /\ zlen (concat C) = keys_at ra.
Proof. intros (E&(C8&_)&(L&_)&KA&_). split; auto. rewrite (zlen_concat 8) by auto. lia. Qed.
Lemma rep_kinds ra C K Y : rep ra C K Y -> blk ra = (concat C ++ concat K) ++ concat Y ++ [] /\ zlen (concat C ++ concat K) = kinds_at ra.
Proof. intros (E&(C8&K2&_)&(L&L'&_)&_&YA). split; [now rewrite app_nil_r, <- app_assoc|]. rewrite zlen_app, (zlen_concat 8), (zlen_concat 2) by auto. lia. Qed.
Lemma rep_size ra n C K Y : rep ra C K Y -> rep (with_size ra n) C K Y. Proof. auto. Qed.
(** stores *)
Lemma chunk1 w n v : n = Z.of_nat w -> chunks n [enc w v]. Proof. intros ->. repeat constructor. apply enc_zlen. Qed.
Lemma set_ptr_ok ra C K Y i v : rep ra C K Y -> 0 <= i < alloc ra ->
  exists r, set_ptr ra i v = Some r /\ rep r (paste C i [enc 8 v]) K Y /\ tsize r = tsize ra /\ alloc r = alloc ra.
Proof.
  intros R I. unfold set_ptr. rewrite (rep_ptrs ra C K Y R). destruct R as (E&(C8&K2&Y1)&(LC&LK&LY)&KA&YA). replace (8 * i) with (0 + Z.of_nat 8 * i) by lia. rewrite st_region by (auto; lia).
  eexists. split; [reflexivity|]. cbn [blk keys_at kinds_at alloc tsize with_blk]. split; [|auto]. split; [reflexivity|]. split; [split; auto; apply chunks_paste; auto; now apply chunk1|]. cbn [blk keys_at kinds_at alloc tsize with_blk]. split; [|auto]. rewrite zlen_paste by (change (zlen [enc 8 v]) with 1; lia). auto.
Qed.
Lemma set_key_ok ra C K Y i v : rep ra C K Y -> 0 <= i < alloc ra ->
  exists r, set_key ra i v = Some r /\ rep r C (paste K i [enc 2 v]) Y /\ tsize r = tsize ra /\ alloc r = alloc ra.
Proof.
  intros R I. unfold set_key. destruct (rep_keys ra C K Y R) as (->&EA). destruct R as (E&(C8&K2&Y1)&(LC&LK&LY)&KA&YA). replace (2 * i) with (Z.of_nat 2 * i) by lia. rewrite st_region by (auto; lia).
  eexists. split; [reflexivity|]. cbn [blk keys_at kinds_at alloc tsize with_blk]. split; [|auto]. split; [reflexivity|]. split; [split; auto; split; auto; apply chunks_paste; auto; now apply chunk1|]. cbn [blk keys_at kinds_at alloc tsize with_blk]. split; [|auto]. rewrite zlen_paste by (change (zlen [enc 2 v]) with 1; lia). auto.
Qed.
Lemma set_kind_ok ra C K Y i v : rep ra C K Y -> 0 <= i < alloc ra ->
  exists r, set_kind ra i v = Some r /\ rep r C K (paste Y i [enc 1 v]) /\ tsize r = tsize ra /\ alloc r = alloc ra.
Proof.
  intros R I. unfold set_kind. destruct (rep_kinds ra C K Y R) as (->&EA). destruct R as (E&(C8&K2&Y1)&(LC&LK&LY)&KA&YA). replace (kinds_at ra + i) with (kinds_at ra + Z.of_nat 1 * i) by lia. rewrite st_region by (auto; lia).
  eexists. split; [reflexivity|]. cbn [blk keys_at kinds_at alloc tsize with_blk]. split; [|auto]. split; [cbn [blk keys_at kinds_at alloc tsize with_blk]; now rewrite app_nil_r, <- app_assoc|]. split; [split; auto; split; auto; apply chunks_paste; auto; now apply chunk1|]. cbn [blk keys_at kinds_at alloc tsize with_blk]. split; [|auto]. rewrite zlen_paste by (change (zlen [enc 1 v]) with 1; lia). auto.
Qed.
(** moves *)
Lemma mv_ptrs_ok ra C K Y d s n : rep ra C K Y -> 0 <= d -> 0 <= s -> 0 <= n -> d + n <= alloc ra -> s + n <= alloc ra ->
  exists r, mv_ptrs ra d s n = Some r /\ rep r (paste C d (cut C s n)) K Y /\ tsize r = tsize ra /\ alloc r = alloc ra.
Proof.
  intros R D S N H H'. unfold mv_ptrs. rewrite (rep_ptrs ra C K Y R). destruct R as (E&(C8&K2&Y1)&(LC&LK&LY)&KA&YA). replace (8 * d) with (0 + 8 * d) by lia. replace (8 * s) with (0 + 8 * s) by lia.
  rewrite (mv_region 8 [] (concat K ++ concat Y) C 0 _ [] (concat K ++ concat Y) C 0) by (auto; lia).
  eexists. split; [reflexivity|]. cbn [blk keys_at kinds_at alloc tsize with_blk]. split; [|auto]. split; [reflexivity|]. split; [split; auto; apply chunks_paste; auto; now apply chunks_cut|]. cbn [blk keys_at kinds_at alloc tsize with_blk]. split; [|auto]. rewrite zlen_paste by (rewrite ?zlen_cut; lia). auto.
Qed.
Lemma mv_keys_ok ra C K Y d s n : rep ra C K Y -> 0 <= d -> 0 <= s -> 0 <= n -> d + n <= alloc ra -> s + n <= alloc ra ->
  exists r, mv_keys ra d s n = Some r /\ rep r C (paste K d (cut K s n)) Y /\ tsize r = tsize ra /\ alloc r = alloc ra.
Proof.
  intros R D S N H H'. unfold mv_keys. destruct (rep_keys ra C K Y R) as (->&EA). destruct R as (E&(C8&K2&Y1)&(LC&LK&LY)&KA&YA).
  rewrite (mv_region 2 (concat C) (concat Y) K (keys_at ra) _ (concat C) (concat Y) K (keys_at ra)) by (auto; lia).
  eexists. split; [reflexivity|]. cbn [blk keys_at kinds_at alloc tsize with_blk]. split; [|auto]. split; [reflexivity|]. split; [split; auto; split; auto; apply chunks_paste; auto; now apply chunks_cut|]. cbn [blk keys_at kinds_at alloc tsize with_blk]. split; [|auto]. rewrite zlen_paste by (rewrite ?zlen_cut; lia). auto.
Qed.
Lemma mv_kinds_ok ra C K Y d s n : rep ra C K Y -> 0 <= d -> 0 <= s -> 0 <= n -> d + n <= alloc ra -> s + n <= alloc ra ->
  exists r, mv_kinds ra d s n = Some r /\ rep r C K (paste Y d (cut Y s n)) /\ tsize r = tsize ra /\ alloc r = alloc ra.
Proof.
  intros R D S N H H'. unfold mv_kinds. destruct (rep_kinds ra C K Y R) as (->&EA). destruct R as (E&(C8&K2&Y1)&(LC&LK&LY)&KA&YA).
  pose proof (mv_region 1 (concat C ++ concat K) [] Y (kinds_at ra) ((concat C ++ concat K) ++ concat Y ++ []) (concat C ++ concat K) [] Y (kinds_at ra) d s n) as Q. rewrite !Z.mul_1_l in Q. rewrite Q by (auto; lia).
  eexists. split; [reflexivity|]. cbn [blk keys_at kinds_at alloc tsize with_blk]. split; [|auto]. split; [cbn [blk keys_at kinds_at alloc tsize with_blk]; now rewrite app_nil_r, <- app_assoc|]. split; [split; auto; split; auto; apply chunks_paste; auto; now apply chunks_cut|]. cbn [blk keys_at kinds_at alloc tsize with_blk]. split; [|auto]. rewrite zlen_paste by (rewrite ?zlen_cut; lia). auto.
Qed.
(** loads *)
Lemma ptr_ok ra C1 v C2 K Y i : rep ra (C1 ++ enc 8 v :: C2) K Y -> zlen C1 = i -> 0 <= v < 2 ^ 64 -> ptr ra i = Some v.
Proof. intros R I V. unfold ptr. rewrite (rep_ptrs _ _ _ _ R). destruct R as (E&(C8&K2&Y1)&_). apply chunks_app in C8 as (C8&_). replace (8 * i) with (0 + Z.of_nat 8 * i) by lia. apply ld_region; auto. Qed.
Lemma key_ok ra C K1 v K2 Y i : rep ra C (K1 ++ enc 2 v :: K2) Y -> zlen K1 = i -> 0 <= v < 2 ^ 16 -> key ra i = Some v.
Proof. intros R I V. unfold key. destruct (rep_keys _ _ _ _ R) as (->&EA). destruct R as (E&(_&C8&Y1)&_). apply chunks_app in C8 as (C8&_). replace (2 * i) with (Z.of_nat 2 * i) by lia. apply ld_region; auto. Qed.
Lemma kind_ok ra C K Y1 v Y2 i : rep ra C K (Y1 ++ enc 1 v :: Y2) -> zlen Y1 = i -> 0 <= v < 2 ^ 8 -> kind ra i = Some v.
Proof. intros R I V. unfold kind. destruct (rep_kinds _ _ _ _ R) as (->&EA). destruct R as (E&(_&_&C8)&_). apply chunks_app in C8 as (C8&_). replace (kinds_at ra + i) with (kinds_at ra + Z.of_nat 1 * i) by lia. apply ld_region; auto. Qed.

(** ** Rows: entry i of the three arrays together *)
Definition row := (block * block * block)%type.
Definition c8 (x : row) : block := fst (fst x). Definition c2 (x : row) : block := snd (fst x). Definition c1 (x : row) : block := snd x.
Definition tri (s : slot) : row := (enc 8 (s_ptr s), enc 2 (s_key s), enc 1 (s_kind s)).
Definition rows (ra : table) (S : list row) : Prop := rep ra (map c8 S) (map c2 S) (map c1 S).
Lemma map_cut {A B} (f : A -> B) l s n : map f (cut l s n) = cut (map f l) s n.
Proof. unfold cut. now rewrite skipn_map, firstn_map. Qed.
Lemma map_paste {A B} (f : A -> B) l s x : map f (paste l s x) = paste (map f l) s (map f x).
Proof. unfold paste. now rewrite !map_app, firstn_map, skipn_map, zlen_map. Qed.
Lemma rows_zlen ra S : rows ra S -> zlen S = alloc ra.
Proof. intros (_&_&(L&_)&_). now rewrite zlen_map in L. Qed.
Lemma put_row ra S i s : rows ra S -> 0 <= i < alloc ra ->
  exists r, (do r <- set_key ra i (s_key s); do r <- set_ptr r i (s_ptr s); set_kind r i (s_kind s)) = Some r /\ rows r (paste S i [tri s]) /\ tsize r = tsize ra /\ alloc r = alloc ra.
Proof.
  intros R I. unfold rows in R. destruct (set_key_ok _ _ _ _ i (s_key s) R I) as (r1&->&R1&S1&A1).
  destruct (set_ptr_ok _ _ _ _ i (s_ptr s) R1) as (r2&->&R2&S2&A2); [lia|].
  destruct (set_kind_ok _ _ _ _ i (s_kind s) R2) as (r3&->&R3&S3&A3); [lia|].
  exists r3. split; auto. unfold rows. rewrite !map_paste. cbn [map]. split; [exact R3|]. lia.
Qed.
Lemma put_pair ra S1 k q t' S2 i p t : rows ra (S1 ++ tri (Slot k q t') :: S2) -> zlen S1 = i ->
  exists r, (do r <- set_ptr ra i p; set_kind r i t) = Some r /\ rows r (S1 ++ tri (Slot k p t) :: S2) /\ tsize r = tsize ra /\ alloc r = alloc ra.
Proof.
  intros R I. pose proof (rows_zlen _ _ R) as L. rewrite zlen_app, zlen_cons in L. pose proof (zlen_nonneg S1). pose proof (zlen_nonneg S2). unfold rows in R.
  destruct (set_ptr_ok _ _ _ _ i p R) as (r2&->&R2&Z2&A2); [lia|].
  destruct (set_kind_ok _ _ _ _ i t R2) as (r3&->&R3&Z3&A3); [lia|].
  exists r3. split; auto. unfold rows. rewrite !map_app in *. cbn [map] in *.
  assert (Q : forall (f : row -> block) x y, paste (map f S1 ++ x :: map f S2) i [y] = map f S1 ++ y :: map f S2).
  { intros f x y. exact (paste_app (map f S1) [x] (map f S2) [y] i ltac:(now rewrite zlen_map) eq_refl). }
  rewrite !Q in R3. split; [exact R3|]. lia.
Qed.
Lemma shift_rows (m1 m2 m3 : table -> Z -> Z -> Z -> option table) ra S d s n :
  (m1, m2, m3) = (mv_keys, mv_ptrs, mv_kinds) \/ (m1, m2, m3) = (mv_ptrs, mv_keys, mv_kinds) ->
  rows ra S -> 0 <= d -> 0 <= s -> 0 <= n -> d + n <= alloc ra -> s + n <= alloc ra ->
  exists r1 r2 r3, m1 ra d s n = Some r1 /\ m2 r1 d s n = Some r2 /\ m3 r2 d s n = Some r3 /\ rows r3 (paste S d (cut S s n)) /\ tsize r1 = tsize ra /\ tsize r2 = tsize ra /\ tsize r3 = tsize ra /\ alloc r3 = alloc ra.
Proof.
  intros M R D Sn N H H'. unfold rows in *. rewrite !map_paste, !map_cut. destruct M as [M|M]; injection M as -> -> ->.
  - destruct (mv_keys_ok _ _ _ _ d s n R D Sn N H H') as (r1&E1&R1&Z1&A1). destruct (mv_ptrs_ok _ _ _ _ d s n R1 D Sn N) as (r2&E2&R2&Z2&A2); try lia.
    destruct (mv_kinds_ok _ _ _ _ d s n R2 D Sn N) as (r3&E3&R3&Z3&A3); try lia. exists r1, r2, r3. repeat (split; [first [assumption|lia]|]). lia.
  - destruct (mv_ptrs_ok _ _ _ _ d s n R D Sn N H H') as (r1&E1&R1&Z1&A1). destruct (mv_keys_ok _ _ _ _ d s n R1 D Sn N) as (r2&E2&R2&Z2&A2); try lia.
    destruct (mv_kinds_ok _ _ _ _ d s n R2 D Sn N) as (r3&E3&R3&Z3&A3); try lia. exists r1, r2, r3. repeat (split; [first [assumption|lia]|]). lia.
Qed.

(** ** What a table holds *)
Definition holds (ra : table) (l : list slot) : Prop :=
  (exists J, rows ra (map tri l ++ J)) /\ tsize ra = zlen l /\ alloc ra <= 65536 /\ Forall slot_ok l.
Lemma holds_size ra l : holds ra l -> tsize ra = zlen l /\ zlen l <= alloc ra <= 65536 /\ 0 <= zlen l.
Proof. intros ((J&R)&T&A&_). pose proof (rows_zlen _ _ R) as L. rewrite zlen_app, zlen_map in L. pose proof (zlen_nonneg J). pose proof (zlen_nonneg l). lia. Qed.
Lemma rows_bytes ra S : rows ra S -> zlen (blk ra) = 11 * alloc ra.
Proof. intros (E&(C&K&Y)&(LC&LK&LY)&_). rewrite E, !zlen_app, (zlen_concat 8), (zlen_concat 2), (zlen_concat 1) by auto. lia. Qed.
Lemma concat_repeat {A} (x : A) w n : concat (repeat (repeat x w) n) = repeat x (w * n)%nat.
Proof. induction n as [|n IH]; cbn [repeat concat]; [now rewrite Nat.mul_0_r|]. rewrite IH, <- repeat_app. f_equal. lia. Qed.
Lemma map_repeat {A B} (f : A -> B) x n : map f (repeat x n) = repeat (f x) n.
Proof. induction n; cbn; f_equal; auto. Qed.
Lemma zlen_repeat {A} (x : A) n : zlen (repeat x n) = Z.of_nat n. Proof. unfold zlen. now rewrite repeat_length. Qed.
Definition free_row : row := (repeat None 8, repeat None 2, repeat None 1).
Lemma fresh_rows cap t : 0 <= cap -> rows (Tab (repeat None (Z.to_nat (cap * (2 + 8 + 1)))) (8 * cap) (8 * cap + 2 * cap) cap t) (repeat free_row (Z.to_nat cap)).
Proof.
  intros C. unfold rows. rewrite !map_repeat. unfold c8, c2, c1, free_row. cbn [fst snd]. split; cbn [blk keys_at kinds_at alloc].
  - unfold block. rewrite !concat_repeat, <- !repeat_app. f_equal. lia.
  - split. + repeat split; apply Forall_forall; intros x X; apply repeat_spec in X; subst x; reflexivity.
    + rewrite !zlen_repeat. repeat split; lia.
Qed.
Lemma rows_of ra C K Y S : rep ra C K Y -> C = map c8 S -> K = map c2 S -> Y = map c1 S -> rows ra S.
Proof. now intros R -> -> ->. Qed.
Lemma realloc_array_ok ra l J cap : rows ra (map tri l ++ J) -> tsize ra = zlen l -> zlen l <= cap ->
  exists r J', realloc_array ra cap = Some r /\ rows r (map tri l ++ J') /\ alloc r = cap /\ tsize r = tsize ra.
Proof.
  intros R T H. pose proof (zlen_nonneg l). pose proof (zlen_nonneg J). pose proof (rows_zlen _ _ R) as LA. rewrite zlen_app, zlen_map in LA. unfold realloc_array. destruct (Z.eqb_spec cap 0) as [->|NZ].
  - destruct l as [|s l']; [|rewrite zlen_cons in *; pose proof (zlen_nonneg l'); lia]. eexists _, []. split; [reflexivity|]. split; [|auto]. unfold rows, rep. cbn. repeat split; auto; constructor.
  - replace (8 * cap + 2 * cap + cap =? cap * (2 + 8 + 1)) with true by lia. pose proof (fresh_rows cap (tsize ra) ltac:(lia)) as F.
    destruct (Z.ltb_spec 0 (tsize ra)) as [P|P].
    2:{ eexists _, _. split; [reflexivity|]. destruct l as [|s l']; [|rewrite zlen_cons in *; pose proof (zlen_nonneg l'); lia]. split; [exact F|auto]. }
    set (N := repeat free_row (Z.to_nat cap)) in *. assert (LN : zlen N = cap) by (unfold N; rewrite zlen_repeat; lia).
    set (SS := map tri l ++ J) in *. unfold rows in *.
    pose proof (rep_ptrs _ _ _ _ R) as BP. destruct (rep_keys _ _ _ _ R) as (BK&AK). destruct (rep_kinds _ _ _ _ R) as (BY&AY). destruct R as (E&(C8&K2&Y1)&(LC&LK&LY)&KA&YA).
    pose proof (rep_ptrs _ _ _ _ F) as FP. cbn [blk] in FP. rewrite FP.
    destruct F as (FE&(FC&FK&FY)&(FLC&FLK&FLY)&_). cbn [blk alloc] in *.
    assert (W8 : zlen (concat (map c8 N)) = 8 * cap) by (rewrite (zlen_concat 8) by auto; lia).
    assert (W2 : zlen (concat (map c2 N)) = 2 * cap) by (rewrite (zlen_concat 2) by auto; lia).
    pose proof (mv_region 8 [] (concat (map c2 N) ++ concat (map c1 N)) (map c8 N) 0 (blk ra) [] (concat (map c2 SS) ++ concat (map c1 SS)) (map c8 SS) 0 0 0 (tsize ra)) as M1.
    change (0 + 8 * 0) with 0 in M1. rewrite M1 by (auto; lia). clear M1. rewrite app_nil_l.
    set (C' := paste (map c8 N) 0 (cut (map c8 SS) 0 (tsize ra))).
    assert (CC' : chunks 8 C') by (apply chunks_paste; auto; now apply chunks_cut).
    assert (LC' : zlen C' = cap) by (unfold C'; rewrite zlen_paste by (rewrite ?zlen_cut; lia); auto).
    assert (W8' : zlen (concat C') = 8 * cap) by (rewrite (zlen_concat 8) by auto; lia).
    pose proof (mv_region 2 (concat C') (concat (map c1 N)) (map c2 N) (8 * cap) (blk ra) (concat (map c8 SS)) (concat (map c1 SS)) (map c2 SS) (keys_at ra) 0 0 (tsize ra)) as M2.
    rewrite Z.mul_0_r, !Z.add_0_r in M2. rewrite M2 by (auto; lia). clear M2.
    set (K' := paste (map c2 N) 0 (cut (map c2 SS) 0 (tsize ra))).
    assert (CK' : chunks 2 K') by (apply chunks_paste; auto; now apply chunks_cut).
    assert (LK' : zlen K' = cap) by (unfold K'; rewrite zlen_paste by (rewrite ?zlen_cut; lia); auto).
    pose proof (mv_region 1 (concat C' ++ concat K') [] (map c1 N) (8 * cap + 2 * cap) (blk ra) (concat (map c8 SS) ++ concat (map c2 SS)) [] (map c1 SS) (kinds_at ra) 0 0 (tsize ra)) as M3.
    rewrite Z.mul_0_r, !Z.add_0_r, Z.mul_1_l, !app_nil_r, <- !app_assoc in M3. rewrite M3 by (auto; try lia; rewrite zlen_app, W8', (zlen_concat 2 K') by auto; lia). clear M3.
    set (Y' := paste (map c1 N) 0 (cut (map c1 SS) 0 (tsize ra))).
    assert (CY' : chunks 1 Y') by (apply chunks_paste; auto; now apply chunks_cut).
    assert (LY' : zlen Y' = cap) by (unfold Y'; rewrite zlen_paste by (rewrite ?zlen_cut; lia); auto).
    assert (Q : exists J', paste N 0 (cut SS 0 (tsize ra)) = map tri l ++ J').
    { unfold SS. pose proof (cut_app [] (map tri l) J 0 (tsize ra) eq_refl ltac:(now rewrite zlen_map)) as Q. rewrite app_nil_l in Q. rewrite Q. unfold paste. eexists. reflexivity. }
    destruct Q as (J'&Q). eexists _, J'. split; [reflexivity|]. split; [|auto]. rewrite <- Q. rewrite !map_paste, !map_cut. fold C' K' Y'. split; [reflexivity|]. cbn [alloc keys_at kinds_at]. repeat split; auto; lia.
Qed.
Lemma extend_array_ok ra l k : holds ra l -> 0 <= k -> zlen l + k <= 65536 ->
  exists r J, extend_array ra k = Some r /\ rows r (map tri l ++ J) /\ k <= zlen J /\ tsize r = tsize ra /\ alloc r <= 65536.
Proof.
  intros HH K H. pose proof (holds_size _ _ HH) as (T&A&P). destruct HH as ((J&R)&_&_&_). pose proof (rows_zlen _ _ R) as LA. rewrite zlen_app, zlen_map in LA. unfold extend_array.
  replace (tsize ra + k <=? 65536) with true by lia. destruct (Z.ltb_spec (alloc ra) (tsize ra + k)) as [L|L].
  - set (nc := if tsize ra <? 1024 then 2 * (tsize ra + k) else 5 * (tsize ra + k) / 4). assert (N : tsize ra + k <= nc).
    { unfold nc. destruct (tsize ra <? 1024); [lia|]. apply Z.div_le_lower_bound; lia. }
    set (cap := if 65536 <? nc then 65536 else nc). assert (N2 : tsize ra + k <= cap <= 65536) by (unfold cap; destruct (Z.ltb_spec 65536 nc); lia).
    destruct (realloc_array_ok ra l J cap R T) as (r&J'&->&R'&A'&T'); [lia|]. exists r, J'. split; auto. split; auto. pose proof (rows_zlen _ _ R') as LB. rewrite zlen_app, zlen_map in LB. lia.
  - exists ra, J. split; auto. split; auto. lia.
Qed.
(** ** Creation *)
Theorem init_holds : holds ra_init [].
Proof. split; [exists []; unfold rows, rep; cbn; repeat split; auto; constructor|]. cbn. repeat split; auto; lia. Qed.
Theorem init_with_capacity_holds cap : 0 <= cap -> holds (ra_init_with_capacity cap) [] /\ alloc (ra_init_with_capacity cap) = Z.min cap 65536.
Proof.
  intros C. unfold ra_init_with_capacity. set (c := if 65536 <? cap then 65536 else cap). assert (Ec : c = Z.min cap 65536) by (unfold c; destruct (Z.ltb_spec 65536 cap); lia).
  destruct (Z.ltb_spec 0 c) as [P|P]; [|split; [apply init_holds|cbn; lia]]. split; [|exact Ec]. split; [|split; [reflexivity|split; [cbn [alloc]; lia|constructor]]].
  exists (repeat free_row (Z.to_nat c)). apply fresh_rows. lia.
Qed.
(** ** Single operations *)
Lemma at_slot l i : 0 <= i <= zlen l -> exists a b, l = a ++ b /\ zlen a = i /\ take i l = a /\ drop i l = b.
Proof.
  intros I. exists (take i l), (drop i l). unfold take, drop. rewrite firstn_skipn. split; auto. split; auto. unfold zlen in *. rewrite firstn_length. lia.
Qed.
Lemma on_slot l i : 0 <= i < zlen l -> exists a s b, l = a ++ s :: b /\ zlen a = i /\ take i l = a /\ drop (i + 1) l = b /\ take 1 (drop i l) = [s].
Proof.
  intros I. destruct (at_slot l i) as (a&b&E&L&T&D); [lia|]. destruct b as [|s b]; [subst l; rewrite app_nil_r in I; lia|]. exists a, s, b. split; auto. split; auto. split; auto. split; [|now rewrite D].
  subst l. unfold drop, zlen in *. replace (a ++ s :: b) with ((a ++ [s]) ++ b) by now rewrite <- app_assoc. apply skipn_app_l. rewrite app_length. cbn. lia.
Qed.
Lemma rows_shape ra S S' : rows ra S -> S = S' -> rows ra S'. Proof. now intros R <-. Qed.
Lemma ok_app a b : Forall slot_ok (a ++ b) <-> Forall slot_ok a /\ Forall slot_ok b. Proof. apply Forall_app. Qed.
Lemma ok_cons s b : Forall slot_ok (s :: b) <-> slot_ok s /\ Forall slot_ok b.
Proof. split; [intros H; inversion H; auto|intros (A&B); constructor; auto]. Qed.
Lemma append_ok ra l s : holds ra l -> slot_ok s -> zlen l < 65536 -> exists r, ra_append ra s = Some r /\ holds r (l ++ [s]).
Proof.
  intros H S L. destruct (extend_array_ok ra l 1 H) as (r&J&E&R&NJ&T&A); try lia. pose proof (holds_size _ _ H) as (TT&_&P). destruct H as (_&_&_&F). unfold ra_append. rewrite E.
  pose proof (rows_zlen _ _ R) as LA. rewrite zlen_app, zlen_map in LA. destruct J as [|j J]; [exfalso; revert NJ; vm_compute; auto|]. rewrite zlen_cons in LA. pose proof (zlen_nonneg J).
  destruct (put_row r _ (tsize r) s R) as (r'&E'&R'&T'&A'); [lia|]. rewrite <- T' in E' |- *. set (pos := tsize r') in *. destruct (set_key r pos (s_key s)) as [x|]; [|discriminate]. destruct (set_ptr x pos (s_ptr s)) as [y|]; [|discriminate]. rewrite E'.
  eexists. split; [reflexivity|]. split; [|split; [cbn [tsize with_size]; rewrite zlen_app; change (zlen [s]) with 1; unfold pos in *; lia|split; [cbn [alloc with_size]; lia|]]].
  - exists J. apply (rows_shape _ _ (map tri (l ++ [s]) ++ J)) in R'; [exact R'|]. rewrite map_app, <- app_assoc. cbn [map]. apply (paste_app (map tri l) [j] J [tri s]); [|reflexivity]. rewrite zlen_map. unfold pos. lia.
  - apply ok_app. split; auto.
Qed.
Lemma insert_ok ra l i s : holds ra l -> slot_ok s -> zlen l < 65536 -> 0 <= i <= zlen l -> exists r, ra_insert_new_key_value_at ra i s = Some r /\ holds r (take i l ++ s :: drop i l).
Proof.
  intros H S L I. destruct (extend_array_ok ra l 1 H) as (r&J&E&R&NJ&T&A); try lia. pose proof (holds_size _ _ H) as (TT&_&P). destruct H as (_&_&_&F). unfold ra_insert_new_key_value_at. rewrite E.
  pose proof (rows_zlen _ _ R) as LA. rewrite zlen_app, zlen_map in LA. destruct J as [|j J]; [exfalso; revert NJ; vm_compute; auto|]. rewrite zlen_cons in LA. pose proof (zlen_nonneg J).
  destruct (shift_rows mv_keys mv_ptrs mv_kinds r _ (i + 1) i (tsize r - i) ltac:(auto) R) as (r1&r2&r3&E1&E2&E3&R3&T1&T2&T3&A3); try lia. rewrite E1. rewrite T1, E2. rewrite T2, E3.
  destruct (put_row r3 _ i s R3) as (r4&E4&R4&T4&A4); [lia|]. destruct (set_key r3 i (s_key s)) as [x|]; [|discriminate]. destruct (set_ptr x i (s_ptr s)) as [y|]; [|discriminate]. rewrite E4.
  destruct (at_slot l i I) as (a&b&El&La&->&->). eexists. split; [reflexivity|]. assert (Lb : zlen l = zlen a + zlen b) by now rewrite El, zlen_app.
  split; [|split; [cbn [tsize with_size]; rewrite zlen_app, zlen_cons; lia|split; [cbn [alloc with_size]; lia|]]].
  - exists J. apply (rows_shape _ _ (map tri (a ++ s :: b) ++ J)) in R4; [exact R4|]. subst l. rewrite !map_app, <- !app_assoc. cbn [map app].
    rewrite cut_app by (rewrite zlen_map; lia).
    destruct (map tri b) as [|x0 y0] eqn:Eb.
    + rewrite !app_nil_l. replace (zlen b) with 0 in Lb by (destruct b; [reflexivity|discriminate]). unfold paste at 2. rewrite app_nil_l. change (zlen (@nil row)) with 0. rewrite Z.add_0_r, firstn_skipn. apply (paste_app (map tri a) [j] J [tri s]); [rewrite zlen_map; lia|reflexivity].
    + assert (Q : paste (map tri a ++ (x0 :: y0) ++ j :: J) (i + 1) (x0 :: y0) = map tri a ++ x0 :: (x0 :: y0) ++ J).
      { replace (map tri a ++ (x0 :: y0) ++ j :: J) with ((map tri a ++ [x0]) ++ (y0 ++ [j]) ++ J) by (rewrite <- !app_assoc; reflexivity).
        rewrite (paste_app (map tri a ++ [x0]) (y0 ++ [j]) J (x0 :: y0)); [now rewrite <- app_assoc|rewrite zlen_app, zlen_map; change (zlen [x0]) with 1; lia|unfold zlen; rewrite app_length; cbn [length]; lia]. }
      rewrite Q. apply (paste_app (map tri a) [x0] ((x0 :: y0) ++ J) [tri s]); [rewrite zlen_map; lia|reflexivity].
  - subst l. apply ok_app in F as (Fa&Fb). apply ok_app. split; auto.
Qed.
Lemma remove_ok ra l i : holds ra l -> 0 <= i < zlen l -> exists r, ra_remove_at_index ra i = Some r /\ holds r (take i l ++ drop (i + 1) l).
Proof.
  intros H I. pose proof (holds_size _ _ H) as (T&A&P). destruct H as ((J&R)&_&_&F). unfold ra_remove_at_index. destruct (on_slot l i I) as (a&s&b&El&La&->&->&_).
  assert (Lb : zlen l = zlen a + zlen b + 1) by (rewrite El, zlen_app, zlen_cons; lia). pose proof (zlen_nonneg b).
  destruct (shift_rows mv_ptrs mv_keys mv_kinds ra _ i (i + 1) (tsize ra - i - 1) ltac:(auto) R) as (r1&r2&r3&->&->&->&R3&T1&T2&T3&A3); try lia.
  eexists. split; [reflexivity|]. split; [|split; [cbn [tsize with_size]; rewrite zlen_app; lia|split; [cbn [alloc with_size]; lia|]]].
  - subst l. rewrite !map_app, <- !app_assoc in R3. cbn [map] in R3. replace (map tri a ++ (tri s :: map tri b) ++ J) with ((map tri a ++ [tri s]) ++ map tri b ++ J) in R3 at 2 by now rewrite <- app_assoc.
    rewrite cut_app in R3 by (rewrite ?zlen_app, ?zlen_map; change (zlen [tri s]) with 1; lia).
    destruct (split3 ((tri s :: map tri b) ++ J) 0 (zlen b)) as (z&x&y&E&Z1&Z2); try lia; [rewrite zlen_app, zlen_cons, zlen_map; pose proof (zlen_nonneg J); lia|].
    destruct z as [|? z]; [|rewrite zlen_cons in Z1; pose proof (zlen_nonneg z); lia]. rewrite app_nil_l in E. rewrite E in R3. exists y. rewrite paste_app in R3 by (rewrite zlen_map; lia). rewrite map_app, <- app_assoc. exact R3.
  - subst l. apply ok_app in F as (Fa&Fb). apply ok_cons in Fb as (_&Fb). apply ok_app. auto.
Qed.
Lemma replace_rows ra S i s : rows ra S -> 0 <= i < tsize ra -> tsize ra <= alloc ra -> exists r, ra_replace ra i s = Some r /\ rows r (paste S i [tri s]) /\ tsize r = tsize ra /\ alloc r = alloc ra.
Proof. intros R I A. unfold ra_replace. replace (i <? tsize ra) with true by lia. apply put_row; auto. lia. Qed.
Lemma replace_ok ra l i s : holds ra l -> slot_ok s -> 0 <= i < zlen l -> exists r, ra_replace ra i s = Some r /\ holds r (take i l ++ s :: drop (i + 1) l).
Proof.
  intros H S I. pose proof (holds_size _ _ H) as (T&A&P). destruct H as ((J&R)&_&_&F). destruct (replace_rows ra _ i s R) as (r&E&R'&T'&A'); try lia. exists r. split; auto.
  destruct (on_slot l i I) as (a&x&b&El&La&->&->&_). subst l. rewrite map_app, <- app_assoc in R'. cbn [map app] in R'. rewrite zlen_app, zlen_cons in *. split; [|split; [rewrite zlen_app, zlen_cons; lia|split; [lia|]]].
  - exists J. rewrite map_app, <- app_assoc. cbn [map app]. pose proof (paste_app (map tri a) [tri x] (map tri b ++ J) [tri s] i ltac:(now rewrite zlen_map) eq_refl) as Q. cbn [app] in Q. rewrite Q in R'. exact R'.
  - apply ok_app in F as (Fa&Fb). apply ok_cons in Fb as (_&Fb). apply ok_app. auto.
Qed.
Lemma set_ok ra l i p t : holds ra l -> 0 <= p < 2 ^ 64 -> 0 <= t < 2 ^ 8 -> 0 <= i < zlen l ->
  exists r, ra_set ra i p t = Some r /\ holds r (take i l ++ map (fun s => Slot (s_key s) p t) (take 1 (drop i l)) ++ drop (i + 1) l).
Proof.
  intros H Hp Ht I. pose proof (holds_size _ _ H) as (T&A&P). destruct H as ((J&R)&_&_&F). unfold ra_set. replace (i <? tsize ra) with true by lia.
  destruct (on_slot l i I) as (a&[k q u]&b&El&La&->&->&->). subst l. rewrite map_app, <- app_assoc in R. cbn [map app] in R. destruct (put_pair ra (map tri a) k q u (map tri b ++ J) i p t R) as (r&->&R'&T'&A'); [now rewrite zlen_map|].
  exists r. split; auto. rewrite !zlen_app, zlen_cons in *. split; [|split; [cbn [map s_key]; rewrite !zlen_app; change (zlen [Slot k p t]) with 1; lia|split; [lia|]]].
  - exists J. rewrite !map_app, <- !app_assoc. exact R'.
  - apply ok_app in F as (Fa&Fb). apply ok_cons in Fb as ((Fk&_)&Fb). apply ok_app. split; auto. cbn [map app s_key]. apply ok_cons. split; auto. split; auto.
Qed.
Lemma downsize_ok ra l n : holds ra l -> 0 <= n <= zlen l -> exists r, ra_downsize ra n = Some r /\ holds r (take n l).
Proof.
  intros H N. pose proof (holds_size _ _ H) as (T&A&P). destruct H as ((J&R)&_&_&F). unfold ra_downsize. replace (n <=? tsize ra) with true by lia. eexists. split; [reflexivity|].
  destruct (at_slot l n N) as (a&b&El&La&->&_). subst l. split; [|split; [cbn [tsize with_size]; lia|split; [cbn [alloc with_size]; lia|]]].
  - exists (map tri b ++ J). rewrite map_app, <- app_assoc in R. exact R.
  - now apply ok_app in F.
Qed.
Lemma take_take l n : take n (take n l) = take n l. Proof. unfold take. rewrite firstn_firstn. now rewrite Nat.min_id. Qed.
Lemma slide_ok ra l b e n : holds ra l -> 0 <= n < b -> b <= e <= zlen l ->
  exists r r', ra_copy_range ra b e n = Some r /\ ra_downsize r (n + (e - b)) = Some r' /\ holds r' (take n l ++ take (e - b) (drop b l)).
Proof.
  intros H N E. pose proof (holds_size _ _ H) as (T&A&P). destruct H as ((J&R)&_&_&F). unfold ra_copy_range. replace ((b <=? e) && (n <? b)) with true by lia.
  destruct (shift_rows mv_ptrs mv_keys mv_kinds ra _ n b (e - b) ltac:(auto) R) as (r1&r2&r3&->&->&->&R3&T1&T2&T3&A3); try lia.
  unfold ra_downsize. exists r3, (with_size r3 (n + (e - b))). split; [reflexivity|]. replace (n + (e - b) <=? tsize r3) with true by lia. split; [reflexivity|].
  destruct (at_slot l n) as (a&w&El&La&Ta&_); [lia|]. rewrite Ta. destruct (split3 l b (e - b)) as (u&v&z&Eb&Lu&Lv); try lia.
  assert (Ev : take (e - b) (drop b l) = v) by (rewrite Eb; unfold take, drop, zlen in *; rewrite skipn_app_l by lia; apply firstn_app_l; lia). rewrite Ev.
  split; [|split; [cbn [tsize with_size]; rewrite zlen_app; lia|split; [cbn [alloc with_size]; lia|]]].
  - assert (C : cut (map tri l ++ J) b (e - b) = map tri v) by (rewrite Eb, !map_app, <- !app_assoc; apply cut_app; now rewrite zlen_map). rewrite C in R3.
    destruct (split3 (map tri w ++ J) 0 (zlen v)) as (z0&x&y&Ex&Z1&Z2); try lia; [rewrite zlen_app, zlen_map; pose proof (zlen_nonneg J); assert (zlen l = zlen a + zlen w) by (now rewrite El, zlen_app); lia|].
    destruct z0 as [|? z0]; [|rewrite zlen_cons in Z1; pose proof (zlen_nonneg z0); lia]. rewrite app_nil_l in Ex. rewrite El, map_app, <- app_assoc, Ex in R3. rewrite paste_app in R3 by (rewrite ?zlen_map; auto). exists y. rewrite map_app, <- app_assoc. exact R3.
  - apply ok_app. split; [rewrite El in F; now apply ok_app in F|]. rewrite Eb in F. apply ok_app in F as (_&F). now apply ok_app in F.
Qed.
Theorem shrink_ok ra l : holds ra l -> exists r savings, ra_shrink_to_fit ra = Some (r, savings) /\ holds r l /\ alloc r = zlen l /\ savings = zlen (blk ra) - zlen (blk r).
Proof.
  intros H. pose proof (holds_size _ _ H) as (T&A&P). destruct H as ((J&R)&_&_&F). unfold ra_shrink_to_fit. destruct (realloc_array_ok ra l J (tsize ra) R T) as (r&J'&->&R'&A'&T'); [lia|]. eexists _, _. split; [reflexivity|].
  assert (Er : Tab (blk r) (keys_at r) (kinds_at r) (tsize r) (tsize r) = r) by (destruct r; cbn in *; f_equal; lia). rewrite Er. split; [|split; [lia|]].
  - split; [exists J'; exact R'|]. split; [lia|]. split; [lia|exact F].
  - rewrite (rows_bytes _ _ R), (rows_bytes _ _ R'). lia.
Qed.
(** ** Searching the keys *)
Lemma znth_mid a x b : znth (a ++ x :: b) (zlen a) = x.
Proof. unfold znth, zlen. rewrite Nat2Z.id, app_nth2 by lia. now rewrite Nat.sub_diag. Qed.
Lemma key_at ra l J i : rows ra (map tri l ++ J) -> Forall slot_ok l -> 0 <= i < zlen l -> key ra i = Some (znth (map s_key l) i).
Proof.
  intros R F I. destruct (on_slot l i I) as (a&s&b&El&La&_). subst l. rewrite map_app, <- app_assoc in R. cbn [map app] in R. unfold rows in R. rewrite !map_app in R. cbn [map] in R. apply ok_app in F as (_&F). apply ok_cons in F as ((K&_)&_).
  rewrite (key_ok _ _ _ _ _ _ i R) by (auto; now rewrite !zlen_map). rewrite map_app. cbn [map]. rewrite <- La, <- (zlen_map s_key a). now rewrite znth_mid.
Qed.
Lemma row_at ra a s b i : rows ra (a ++ tri s :: b) -> slot_ok s -> zlen a = i -> key ra i = Some (s_key s) /\ ptr ra i = Some (s_ptr s) /\ kind ra i = Some (s_kind s).
Proof.
  intros R (K&P&T) I. unfold rows in R. rewrite !map_app in R. cbn [map] in R. split; [|split].
  - apply (key_ok _ _ _ _ _ _ i R); auto. now rewrite zlen_map.
  - apply (ptr_ok _ _ _ _ _ _ i R); auto. now rewrite zlen_map.
  - apply (kind_ok _ _ _ _ _ _ i R); auto. now rewrite zlen_map.
Qed.
Lemma search_ok ra l J k : rows ra (map tri l ++ J) -> Forall slot_ok l -> forall fuel low high, 0 <= low -> high < zlen l -> low <= high + 1 -> high - low + 1 < Z.of_nat fuel ->
  search fuel ra low high k = Some (binarySearch_loop fuel (map s_key l) low high k).
Proof.
  intros R F. induction fuel as [|f IH]; intros low high L H LH N; [lia|]. cbn [search binarySearch_loop]. destruct (Z.leb_spec low high) as [C|C]; [|reflexivity].
  assert (B : low <= Z.shiftr (low + high) 1 <= high) by (rewrite Z.shiftr_div_pow2 by lia; change (2 ^ 1) with 2; lia). rewrite (key_at ra l J) by (auto; lia).
  destruct (_ <? k); [apply IH; lia|]. destruct (k <? _); [apply IH; lia|reflexivity].
Qed.
Lemma binarySearch_keys_ok ra l J k : rows ra (map tri l ++ J) -> Forall slot_ok l -> binarySearch_keys ra (zlen l) k = Some (binarySearch (map s_key l) k).
Proof.
  intros R F. unfold binarySearch_keys, binarySearch. pose proof (zlen_nonneg l). rewrite (search_ok ra l J k R F) by (unfold zlen in *; lia). rewrite zlen_map. unfold zlen. now rewrite Nat2Z.id, map_length.
Qed.
Lemma count_less_keys_ok ra l J k : rows ra (map tri l ++ J) -> Forall slot_ok l -> incr (map s_key l) -> count_less_keys ra (zlen l) k = Some (lb (map s_key l) k).
Proof.
  intros R F I. unfold count_less_keys. rewrite (binarySearch_keys_ok ra l J k R F). rewrite <- (count_less_spec (map s_key l) k I). unfold count_less. rewrite zlen_map. now destruct (zlen l =? 0).
Qed.
Lemma count_greater_keys_ok ra l J k : rows ra (map tri l ++ J) -> Forall slot_ok l -> incr (map s_key l) -> count_greater_keys ra (zlen l) k = Some (zlen l - lb (map s_key l) (k + 1)).
Proof.
  intros R F I. unfold count_greater_keys. rewrite (binarySearch_keys_ok ra l J k R F). pose proof (count_greater_spec (map s_key l) k I) as Q. rewrite zlen_map in Q. rewrite <- Q. unfold count_greater. rewrite zlen_map. now destruct (zlen l =? 0).
Qed.
(** ** The slots below, inside and above a range of keys *)
Definition between (lo hi : Z) (l : list slot) : list slot := filter (fun s => (lo <=? s_key s) && (s_key s <=? hi)) l.
Lemma filter_none {A} (f : A -> bool) l : (forall x, In x l -> f x = false) -> filter f l = [].
Proof. induction l as [|x t IH]; cbn; intros H; auto. rewrite (H x) by auto. auto. Qed.
Lemma filter_all {A} (f : A -> bool) l : (forall x, In x l -> f x = true) -> filter f l = l.
Proof. induction l as [|x t IH]; cbn; intros H; auto. rewrite (H x) by auto. f_equal. auto. Qed.
Lemma key_split lo hi l : by_key l -> lo <= hi -> l = below lo l ++ between lo hi l ++ above hi l.
Proof.
  intros S LH. unfold by_key in S. unfold below, between, above. induction l as [|s t IH]; [reflexivity|]. cbn [map] in S. inversion S as [|? ? S' F]; subst. specialize (IH S').
  assert (G : forall x, In x t -> s_key s < s_key x) by (intros x X; rewrite Forall_forall in F; apply F; now apply in_map).
  cbn [filter]. destruct (Z.ltb_spec (s_key s) lo) as [A|A].
  - replace ((lo <=? s_key s) && (s_key s <=? hi)) with false by lia. replace (hi <? s_key s) with false by lia. cbn [app]. f_equal. exact IH.
  - rewrite (filter_none (fun s0 => s_key s0 <? lo) t) in * by (intros x X; specialize (G x X); lia). destruct (Z.ltb_spec hi (s_key s)) as [B|B].
    + replace ((lo <=? s_key s) && (s_key s <=? hi)) with false by lia. rewrite (filter_none _ t), (filter_all _ t); auto; intros x X; specialize (G x X); lia.
    + replace ((lo <=? s_key s) && (s_key s <=? hi)) with true by lia. cbn [app]. f_equal. exact IH.
Qed.
Lemma in_below lo l x : In x (below lo l) -> s_key x < lo. Proof. unfold below. rewrite filter_In. lia. Qed.
Lemma in_between lo hi l x : In x (between lo hi l) -> lo <= s_key x <= hi. Proof. unfold between. rewrite filter_In. lia. Qed.
Lemma in_above hi l x : In x (above hi l) -> hi < s_key x. Proof. unfold above. rewrite filter_In. lia. Qed.
Lemma in_keys (P : Z -> Prop) (l : list slot) : (forall x, In x l -> P (s_key x)) -> forall y, In y (map s_key l) -> P y.
Proof. intros H y Y. apply in_map_iff in Y as (x&<-&X). auto. Qed.
Lemma incr_room l : forall lo hi, incr l -> (forall x, In x l -> lo <= x < hi) -> lo <= hi -> zlen l <= hi - lo.
Proof.
  induction l as [|x t IH]; intros lo hi I B LH; [unfold zlen; cbn [length]; lia|]. destruct I as (F&I). rewrite zlen_cons. pose proof (B x (or_introl eq_refl)).
  pose proof (IH (x + 1) hi I). rewrite Forall_forall in F. assert (zlen t <= hi - (x + 1)); [apply H0; [|lia]|lia]. intros y Y. specialize (F y Y). pose proof (B y (or_intror Y)). lia.
Qed.
Lemma by_key_incr l : by_key l -> incr (map s_key l).
Proof. unfold by_key. induction (map s_key l) as [|x t IH]; cbn; auto. intros S. inversion S; subst. auto. Qed.
(** ** Filling a range of keys *)
Lemma keys_between_last lo k : lo <= k -> keys_between lo k = keys_between lo (k - 1) ++ [k].
Proof.
  intros H. unfold keys_between. replace (Z.to_nat (k - lo + 1)) with (Z.to_nat (k - 1 - lo + 1) + 1)%nat by lia. rewrite seq_app, map_app. cbn [seq map]. f_equal. f_equal. lia.
Qed.
Lemma in_keys_between lo k x : In x (keys_between lo k) -> lo <= x <= k.
Proof. unfold keys_between. intros H. apply in_map_iff in H as (i&<-&I). apply in_seq in I. lia. Qed.
Lemma find_key_app k a b : find_key k (a ++ b) = match find_key k a with Some s => Some s | None => find_key k b end.
Proof. unfold find_key. induction a as [|s t IH]; cbn; auto. destruct (s_key s =? k); auto. Qed.
Lemma find_key_none k a : (forall x, In x a -> s_key x <> k) -> find_key k a = None.
Proof. unfold find_key. induction a as [|s t IH]; cbn; intros H; auto. destruct (Z.eqb_spec (s_key s) k) as [E|E]; [exfalso; now apply (H s (or_introl eq_refl))|]. apply IH. auto. Qed.
Lemma fill_loop_ok g : (forall k o, 0 <= fst (g k o) < 2 ^ 64 /\ 0 <= snd (g k o) < 2 ^ 8) -> forall n ra pre mid M dn J lo k,
  rows ra (map tri (pre ++ mid) ++ M ++ map tri dn ++ J) -> Forall slot_ok (pre ++ mid) -> incr (map s_key mid) ->
  (forall x, In x pre -> s_key x < lo) -> (forall x, In x mid -> lo <= s_key x <= k) -> Z.of_nat n = k - lo + 1 -> zlen mid + zlen M = Z.of_nat n ->
  tsize ra = zlen pre + Z.of_nat n + zlen dn -> tsize ra <= alloc ra ->
  exists r, fill_loop n ra k (zlen pre + zlen mid - 1) (zlen pre + Z.of_nat n - 1) g = Some r /\
    rows r (map tri (pre ++ map (filled mid g) (keys_between lo k) ++ dn) ++ J) /\ tsize r = tsize ra /\ alloc r = alloc ra.
Proof.
  intros G. induction n as [|n IH]; intros ra pre mid M dn J lo k R F I BP BM N LM T A.
  - exists ra. cbn [fill_loop]. split; [reflexivity|]. split; [|auto]. pose proof (zlen_nonneg mid). pose proof (zlen_nonneg M).
    destruct mid as [|? mid]; [|rewrite zlen_cons in LM; pose proof (zlen_nonneg mid); lia]. destruct M as [|? M]; [|rewrite zlen_cons in LM; pose proof (zlen_nonneg M); lia].
    unfold keys_between. replace (Z.to_nat (k - lo + 1)) with 0%nat by lia. cbn [seq map app]. rewrite app_nil_r in R. cbn [app] in R. rewrite map_app, <- app_assoc. exact R.
  - pose proof (zlen_nonneg pre). pose proof (zlen_nonneg dn). pose proof (zlen_nonneg mid). pose proof (zlen_nonneg M). cbn [fill_loop]. remember (zlen pre + zlen mid - 1) as src eqn:Esrc. remember (zlen pre + Z.of_nat (S n) - 1) as dst eqn:Edst.
    (* what the turn reads: the rows left, the gap and the new slot *)
    assert (Q : exists mid2 M2 p t, (do hit <- (if 0 <=? src then do ks <- key ra src; Some (ks =? k) else Some false);
        (if hit then do p <- ptr ra src; do t <- kind ra src; Some (g k (Some (p, t)), src - 1) else Some (g k None, src))) = Some ((p, t), zlen pre + zlen mid2 - 1) /\
        rows ra (map tri (pre ++ mid2) ++ M2 ++ map tri dn ++ J) /\ filled mid g k = Slot k p t /\ zlen mid2 + zlen M2 = Z.of_nat (S n) /\ 1 <= zlen M2 /\
        (exists w, mid = mid2 ++ w) /\ (forall x, In x mid2 -> lo <= s_key x <= k - 1) /\ (forall k', lo <= k' <= k - 1 -> find_key k' mid = find_key k' mid2)).
    { destruct (Z.leb_spec 0 src) as [P|P].
      - destruct mid as [|s0 mid0] eqn:Em.
        + (* the last slot before the range *)
          destruct pre as [|s1 pre1]; [exfalso; rewrite Esrc in P; revert P; vm_compute; congruence|]. destruct (exists_last (l := s1 :: pre1)) as (a&s&Es); [discriminate|]. rewrite Es in *. clear Es s1 pre1. rewrite app_nil_r in *.
          assert (La : zlen a = src) by (rewrite Esrc; rewrite zlen_app; unfold zlen; cbn [length]; lia). pose proof R as R'. rewrite map_app, <- app_assoc in R'. cbn [map app] in R'. assert (OS : slot_ok s) by (apply ok_app in F as (_&F); now apply ok_cons in F).
          destruct (row_at ra _ s _ src R' OS) as (->&_&_); [now rewrite zlen_map|]. specialize (BP s ltac:(apply in_or_app; right; now left)). replace (s_key s =? k) with false by lia.
          destruct (g k None) as (p, t) eqn:Eg. exists [], M, p, t. unfold filled. cbn [find_key find]. rewrite Eg. rewrite app_nil_r. split; [rewrite Esrc; reflexivity|]. split; [exact R|]. split; [reflexivity|]. unfold zlen in *; cbn [length] in *. split; [lia|]. split; [lia|]. split; [now exists []|]. split; [intros ? []|reflexivity].
        + destruct (exists_last (l := s0 :: mid0)) as (mid2&s&Es); [discriminate|]. rewrite Es in *. clear Es s0 mid0 Em.
          assert (La : zlen (pre ++ mid2) = src) by (rewrite Esrc; rewrite !zlen_app; unfold zlen; cbn [length]; lia). assert (OS : slot_ok s) by (apply ok_app in F as (_&F); apply ok_app in F as (_&F); now apply ok_cons in F).
          assert (R' : rows ra (map tri (pre ++ mid2) ++ tri s :: M ++ map tri dn ++ J)). { rewrite !map_app, <- !app_assoc in R. cbn [map app] in R. rewrite map_app, <- app_assoc. exact R. }
          destruct (row_at ra _ s _ src R' OS) as (->&->&->); [now rewrite zlen_map|].
          rewrite map_app in I. apply incr_app in I as (I2&_&IL). assert (BL : forall x, In x mid2 -> s_key x < s_key s) by (intros x X; apply IL; [now apply in_map|now left]). pose proof (BM s ltac:(apply in_or_app; right; now left)) as Bs.
          destruct (Z.eqb_spec (s_key s) k) as [E|E].
          * destruct (g k (Some (s_ptr s, s_kind s))) as (p, t) eqn:Eg. exists mid2, (tri s :: M), p, t. assert (Fk : find_key k (mid2 ++ [s]) = Some s).
            { rewrite find_key_app, find_key_none by (intros x X; specialize (BL x X); lia). unfold find_key. cbn [find]. now rewrite (proj2 (Z.eqb_eq _ _) E). }
            unfold filled. rewrite Fk, Eg. rewrite zlen_app in *. change (zlen [s]) with 1 in *. split; [f_equal; f_equal; rewrite Esrc; lia|]. split; [exact R'|]. split; [reflexivity|]. rewrite zlen_cons. split; [lia|]. split; [lia|]. split; [now exists [s]|].
            split; [intros x X; specialize (BL x X); specialize (BM x ltac:(apply in_or_app; now left)); lia|]. intros k' K'. rewrite find_key_app. destruct (find_key k' mid2); auto. unfold find_key. cbn [find]. now replace (s_key s =? k') with false by lia.
          * destruct (g k None) as (p, t) eqn:Eg. exists (mid2 ++ [s]), M, p, t. assert (B2 : forall x, In x (mid2 ++ [s]) -> lo <= s_key x <= k - 1).
            { intros x X. specialize (BM x X). apply in_app_or in X as [X|[<-|[]]]; [specialize (BL x X)|]; lia. }
            unfold filled. rewrite find_key_none by (intros x X; specialize (B2 x X); lia). rewrite Eg. split; [rewrite Esrc; reflexivity|]. split; [exact R|]. split; [reflexivity|]. split; [lia|].
            assert (RM : zlen (map s_key (mid2 ++ [s])) <= k - lo). { apply incr_room; [|apply in_keys; intros x X; specialize (B2 x X); lia|lia]. rewrite map_app. cbn [map]. apply incr_app. repeat split; auto. }
            rewrite zlen_map in RM. split; [lia|]. split; [exists []; now rewrite app_nil_r|]. split; [exact B2|reflexivity].
      - assert (E0 : zlen pre = 0 /\ zlen mid = 0) by (rewrite Esrc in P; lia). destruct E0 as (Z1&Z2). destruct mid as [|? mid]; [|rewrite zlen_cons in Z2; pose proof (zlen_nonneg mid); lia].
        destruct (g k None) as (p, t) eqn:Eg. exists [], M, p, t. unfold filled. cbn [find_key find]. rewrite Eg. split; [rewrite Esrc; reflexivity|]. split; [exact R|]. split; [reflexivity|]. split; [lia|]. split; [lia|]. split; [now exists []|]. split; [intros ? []|reflexivity]. }
    destruct Q as (mid2&M2&p&t&Q&R2&Ef&L2&G2&(w&Ew)&B2&Fk).
    assert (E2 : exists M' m, M2 = M' ++ [m]). { destruct M2 as [|m0 M0]; [revert G2; vm_compute; intros X; exfalso; now apply X|]. destruct (exists_last (l := m0 :: M0)) as (M'&m&Em); [discriminate|]. eauto. }
    destruct E2 as (M'&m&->). rewrite zlen_app in L2. change (zlen [m]) with 1 in L2. pose proof (zlen_nonneg mid2). pose proof (zlen_nonneg M').
    destruct (if 0 <=? src then _ else _) as [hit|]; [|discriminate]. rewrite Q. clear Q.
    destruct (replace_rows ra _ dst (Slot k p t) R2) as (r&->&R3&T3&A3); try lia.
    assert (R4 : rows r (map tri (pre ++ mid2) ++ M' ++ map tri (Slot k p t :: dn) ++ J)).
    { apply (rows_shape _ _ _ R3). replace (map tri (pre ++ mid2) ++ (M' ++ [m]) ++ map tri dn ++ J) with ((map tri (pre ++ mid2) ++ M') ++ [m] ++ map tri dn ++ J) by now rewrite <- !app_assoc.
      rewrite paste_app; [now rewrite <- !app_assoc|rewrite zlen_app, zlen_map, zlen_app; rewrite Edst; lia|reflexivity]. }
    subst mid. rewrite map_app in I. apply incr_app in I as (I2&_&_).
    destruct (IH r pre mid2 M' (Slot k p t :: dn) J lo (k - 1) R4) as (r'&E'&R'&T'&A'); auto; try lia.
    { rewrite app_assoc in F. now apply ok_app in F. } { rewrite zlen_cons. lia. }
    exists r'. split; [|split; [|lia]].
    + replace (dst - 1) with (zlen pre + Z.of_nat n - 1) by (rewrite Edst; lia). exact E'.
    + apply (rows_shape _ _ _ R'). f_equal. f_equal. f_equal. rewrite (keys_between_last lo k) by lia. rewrite map_app, <- app_assoc. cbn [map app]. rewrite Ef. f_equal. apply map_ext_in. intros x X. apply in_keys_between in X. unfold filled. now rewrite Fk by lia.
Qed.
(** ** Moving the tail *)
Lemma shift_up_ok ra a b d : holds ra (a ++ b) -> 0 < d -> zlen (a ++ b) + d <= 65536 ->
  exists r G J, ra_shift_tail ra (zlen b) d = Some r /\ rows r (map tri a ++ G ++ map tri b ++ J) /\ zlen G = d /\ tsize r = zlen (a ++ b) + d /\ alloc r <= 65536.
Proof.
  intros H D L. destruct (extend_array_ok ra (a ++ b) d H) as (r&J&E&R&NJ&T&A); try lia. pose proof (holds_size _ _ H) as (TT&_&P). unfold ra_shift_tail. replace (0 <? d) with true by lia. rewrite E.
  pose proof (rows_zlen _ _ R) as LA. rewrite !zlen_app, zlen_map, zlen_app in *. pose proof (zlen_nonneg a). pose proof (zlen_nonneg b). replace (tsize r - zlen b) with (zlen a) by lia.
  destruct (shift_rows mv_keys mv_ptrs mv_kinds r _ (zlen a + d) (zlen a) (zlen b) ltac:(auto) R) as (r1&r2&r3&E1&E2&E3&R3&T1&T2&T3&A3); try lia. rewrite E1, E2, E3.
  rewrite map_app, <- app_assoc in R3. rewrite cut_app in R3 by now rewrite zlen_map.
  destruct (split3 (map tri b ++ J) d (zlen b)) as (x&y&z&Ex&Lx&Ly); try lia; [rewrite zlen_app, zlen_map; lia|]. rewrite Ex in R3. rewrite (app_assoc (map tri a)) in R3. rewrite paste_app in R3 by (rewrite ?zlen_app, ?zlen_map; lia).
  eexists _, x, z. split; [reflexivity|]. split; [rewrite <- app_assoc in R3; exact R3|]. split; auto. cbn [tsize with_size alloc]. lia.
Qed.
Lemma shift_down_ok ra pre G suf J : rows ra (map tri pre ++ G ++ map tri suf ++ J) -> tsize ra = zlen pre + zlen G + zlen suf -> 
  exists r J', ra_shift_tail ra (zlen suf) (- zlen G) = Some r /\ rows r (map tri (pre ++ suf) ++ J') /\ tsize r = zlen (pre ++ suf) /\ alloc r = alloc ra.
Proof.
  intros R T. pose proof (zlen_nonneg pre). pose proof (zlen_nonneg G). pose proof (zlen_nonneg suf). pose proof (zlen_nonneg J). pose proof (rows_zlen _ _ R) as LA. rewrite !zlen_app, !zlen_map in LA. unfold ra_shift_tail. replace (0 <? - zlen G) with false by lia.
  replace (tsize ra - zlen suf) with (zlen pre + zlen G) by lia. replace (zlen pre + zlen G + - zlen G) with (zlen pre) by lia.
  destruct (shift_rows mv_keys mv_ptrs mv_kinds ra _ (zlen pre) (zlen pre + zlen G) (zlen suf) ltac:(auto) R) as (r1&r2&r3&->&->&->&R3&T1&T2&T3&A3); try lia.
  rewrite (app_assoc (map tri pre) G) in R3 at 2. rewrite cut_app in R3 by (rewrite ?zlen_app, ?zlen_map; lia).
  destruct (split3 (G ++ map tri suf ++ J) 0 (zlen suf)) as (z0&x&y&Ex&Z1&Z2); try lia; [rewrite !zlen_app, zlen_map; lia|]. destruct z0 as [|? z0]; [|rewrite zlen_cons in Z1; pose proof (zlen_nonneg z0); lia]. rewrite app_nil_l in Ex. rewrite Ex in R3.
  rewrite paste_app in R3 by (rewrite ?zlen_map; lia). eexists _, y. split; [reflexivity|]. split; [rewrite map_app, <- app_assoc; exact R3|]. cbn [tsize with_size alloc]. rewrite zlen_app. lia.
Qed.
Lemma lb_keys_all l k : (forall x, In x l -> s_key x < k) -> lb (map s_key l) k = zlen l.
Proof. intros H. rewrite lb_all by now apply in_keys. apply zlen_map. Qed.
Lemma lb_keys_none l k : (forall x, In x l -> k <= s_key x) -> lb (map s_key l) k = 0.
Proof. intros H. apply lb_none. now apply in_keys. Qed.
Lemma ok_key l x : Forall slot_ok l -> In x l -> 0 <= s_key x < 65536.
Proof. intros F X. rewrite Forall_forall in F. now destruct (F x X). Qed.
Lemma filled_ok l g k : (forall k o, 0 <= fst (g k o) < 2 ^ 64 /\ 0 <= snd (g k o) < 2 ^ 8) -> 0 <= k < 2 ^ 16 -> slot_ok (filled l g k).
Proof. intros G K. unfold filled. set (o := match find_key k l with Some s => Some (s_ptr s, s_kind s) | None => None end). specialize (G k o). destruct (g k o) as (p, t). cbn [fst snd] in G. split; [exact K|exact G]. Qed.
Lemma add_range_closed_ok ra l lo hi g : holds ra l -> by_key l -> 0 <= lo <= hi -> hi < 2 ^ 16 -> (forall k o, 0 <= fst (g k o) < 2 ^ 64 /\ 0 <= snd (g k o) < 2 ^ 8) ->
  exists r, add_range_closed ra lo hi g = Some r /\ holds r (below lo l ++ map (filled l g) (keys_between lo hi) ++ above hi l).
Proof.
  intros H S LH HI G. pose proof (holds_size _ _ H) as (T&A&P). pose proof (key_split lo hi l S ltac:(lia)) as El. pose proof (by_key_incr l S) as I.
  pose proof (in_below lo l) as Bp. pose proof (in_between lo hi l) as Bm. pose proof (in_above hi l) as Bs. set (pre := below lo l) in *. set (mid := between lo hi l) in *. set (suf := above hi l) in *.
  assert (Fk : forall k, lo <= k <= hi -> find_key k l = find_key k mid).
  { intros k K. rewrite El, !find_key_app. rewrite (find_key_none k pre) by (intros x X; specialize (Bp x X); lia). rewrite (find_key_none k suf) by (intros x X; specialize (Bs x X); lia). now destruct (find_key k mid). }
  assert (Ef : map (filled l g) (keys_between lo hi) = map (filled mid g) (keys_between lo hi)).
  { apply map_ext_in. intros x X. apply in_keys_between in X. unfold filled. now rewrite Fk. }
  assert (FO : Forall slot_ok (map (filled l g) (keys_between lo hi))).
  { apply Forall_forall. intros x X. apply in_map_iff in X as (k&<-&X). apply in_keys_between in X. apply filled_ok; auto. lia. }
  rewrite Ef in *. clear Ef Fk. clearbody pre mid suf. subst l.
  assert (ZL : zlen (pre ++ mid ++ suf) = zlen pre + zlen mid + zlen suf) by (rewrite !zlen_app; lia). pose proof (zlen_nonneg pre). pose proof (zlen_nonneg mid). pose proof (zlen_nonneg suf).
  pose proof H as ((J&R)&_&_&F). pose proof F as F'. apply ok_app in F' as (Fp&Fr). apply ok_app in Fr as (Fm&Fs).
  rewrite !map_app in I. apply incr_app in I as (Ip&Ir&_). apply incr_app in Ir as (Im&Is&_).
  assert (Rp : zlen pre <= lo). { rewrite <- (zlen_map s_key). pose proof (incr_room (map s_key pre) 0 lo Ip) as Q. rewrite Z.sub_0_r in Q. apply Q; [|lia]. apply in_keys. intros x X. pose proof (Bp x X). pose proof (ok_key pre x Fp X). lia. }
  assert (Rm : zlen mid <= hi - lo + 1). { rewrite <- (zlen_map s_key). pose proof (incr_room (map s_key mid) lo (hi + 1) Im) as Q. replace (hi - lo + 1) with (hi + 1 - lo) by lia. apply Q; [|lia]. apply in_keys. intros x X. pose proof (Bm x X). lia. }
  assert (Rs : zlen suf <= 65535 - hi). { rewrite <- (zlen_map s_key). pose proof (incr_room (map s_key suf) (hi + 1) 65536 Is) as Q. replace (65535 - hi) with (65536 - (hi + 1)) by lia. apply Q; [|lia]. apply in_keys. intros x X. pose proof (Bs x X). pose proof (ok_key suf x Fs X). lia. }
  unfold add_range_closed. rewrite T. rewrite (count_greater_keys_ok ra _ J hi R F) by now apply by_key_incr. rewrite !map_app, !lb_app. rewrite (lb_keys_all pre) by (intros x X; specialize (Bp x X); lia). rewrite (lb_keys_all mid) by (intros x X; specialize (Bm x X); lia). rewrite (lb_keys_none suf) by (intros x X; specialize (Bs x X); lia).
  replace (zlen (pre ++ mid ++ suf) - (zlen pre + (zlen mid + 0))) with (zlen suf) by lia.
  replace (zlen (pre ++ mid ++ suf) - zlen suf) with (zlen (pre ++ mid)) by (rewrite !zlen_app; lia).
  assert (R1 : rows ra (map tri (pre ++ mid) ++ map tri suf ++ J)) by (rewrite app_assoc, <- map_app, <- app_assoc; exact R). assert (F1 : Forall slot_ok (pre ++ mid)) by (apply ok_app; auto).
  rewrite (count_less_keys_ok ra _ _ lo R1 F1). 2:{ apply by_key_incr in S. rewrite app_assoc, map_app in S. now apply incr_app in S. }
  rewrite map_app, lb_app. rewrite (lb_keys_all pre) by (intros x X; specialize (Bp x X); lia). rewrite (lb_keys_none mid) by (intros x X; specialize (Bm x X); lia). rewrite Z.add_0_r.
  replace (zlen (pre ++ mid ++ suf) - zlen pre - zlen suf) with (zlen mid) by lia.
  assert (Q : exists r M J', (if zlen mid <? hi - lo + 1 then ra_shift_tail ra (zlen suf) (hi - lo + 1 - zlen mid) else Some ra) = Some r /\
    rows r (map tri (pre ++ mid) ++ M ++ map tri suf ++ J') /\ zlen mid + zlen M = hi - lo + 1 /\ tsize r = zlen pre + (hi - lo + 1) + zlen suf /\ alloc r <= 65536).
  { destruct (Z.ltb_spec (zlen mid) (hi - lo + 1)) as [C|C].
    - pose proof H as HQ. rewrite app_assoc in HQ. destruct (shift_up_ok ra (pre ++ mid) suf (hi - lo + 1 - zlen mid) HQ) as (r&M&J'&E&R'&LM&T'&A'); [lia|rewrite !zlen_app; lia|]. exists r, M, J'. split; auto. split; auto. rewrite !zlen_app in T'. lia.
    - exists ra, [], J. split; auto. split; [exact R1|]. unfold zlen at 2. cbn [length]. lia. }
  destruct Q as (r&M&J'&->&R2&LM&T2&A2). pose proof (rows_zlen _ _ R2) as LA. rewrite !zlen_app, !zlen_map, zlen_app in LA. pose proof (zlen_nonneg J').
  replace (tsize r - zlen suf - 1) with (zlen pre + Z.of_nat (Z.to_nat (hi - lo + 1)) - 1) by lia.
  destruct (fill_loop_ok g G (Z.to_nat (hi - lo + 1)) r pre mid M suf J' lo hi R2 F1 Im) as (r'&E'&R'&T'&A'); auto; try lia.
  exists r'. split; auto. split; [exists J'; exact R'|]. split; [|split; [lia|]].
  - rewrite !zlen_app, zlen_map. unfold keys_between. rewrite zlen_map. assert (SL : zlen (seq 0 (Z.to_nat (hi - lo + 1))) = hi - lo + 1) by (unfold zlen; rewrite seq_length; lia). lia.
  - apply ok_app. split; auto. apply ok_app. auto.
Qed.
(** ** Emptying a range of keys *)
Lemma drop_loop_ok g hi : forall fuel ra pre G mid suf J,
  rows ra (map tri pre ++ G ++ map tri (mid ++ suf) ++ J) -> tsize ra = zlen pre + zlen G + zlen mid + zlen suf -> Forall slot_ok (mid ++ suf) ->
  (forall x, In x mid -> s_key x <= hi) -> (forall x, In x suf -> hi < s_key x) -> zlen mid < Z.of_nat fuel -> 
  exists r G', drop_loop fuel ra (zlen pre + zlen G) (zlen pre) hi g = Some (r, zlen (pre ++ flat_map (edited g) mid) + zlen G', zlen (pre ++ flat_map (edited g) mid)) /\
    rows r (map tri (pre ++ flat_map (edited g) mid) ++ G' ++ map tri suf ++ J) /\ tsize r = tsize ra /\ alloc r = alloc ra.
Proof.
  induction fuel as [|f IH]; intros ra pre G mid suf J R T F BM BS N; [pose proof (zlen_nonneg mid); lia|].
  pose proof (zlen_nonneg pre). pose proof (zlen_nonneg G). pose proof (zlen_nonneg mid). pose proof (zlen_nonneg suf). cbn [drop_loop]. destruct mid as [|s mid].
  - cbn [app flat_map] in *. rewrite app_nil_r. change (zlen (@nil slot)) with 0 in T. exists ra, G. split; [|split; [exact R|auto]]. destruct suf as [|x suf].
    + replace (zlen pre + zlen G <? tsize ra) with false; [reflexivity|]. change (zlen (@nil slot)) with 0 in T. lia.
    + rewrite zlen_cons in *. pose proof (zlen_nonneg suf). replace (zlen pre + zlen G <? tsize ra) with true by lia. apply ok_cons in F as (O&_). cbn [map app] in R. rewrite app_assoc in R.
      destruct (row_at ra _ x _ (zlen pre + zlen G) R O) as (->&_); [rewrite zlen_app, zlen_map; lia|]. specialize (BS x (or_introl eq_refl)). replace (s_key x <=? hi) with false by lia. reflexivity.
  - rewrite zlen_cons in *. pose proof (zlen_nonneg mid). replace (zlen pre + zlen G <? tsize ra) with true by lia. cbn [app] in F, R. apply ok_cons in F as (O&F). pose proof R as R0. cbn [map app] in R0. rewrite app_assoc in R0.
    destruct (row_at ra _ s _ (zlen pre + zlen G) R0 O) as (->&->&->); [rewrite zlen_app, zlen_map; lia|]. pose proof (BM s (or_introl eq_refl)) as Bs. replace (s_key s <=? hi) with true by lia. cbn [flat_map]. assert (Ee : edited g s = match g (s_key s) (s_ptr s, s_kind s) with Some (p, t) => [Slot (s_key s) p t] | None => [] end) by reflexivity. rewrite !Ee. clear Ee. destruct (g (s_key s) (s_ptr s, s_kind s)) as [(p, t)|] eqn:Eg.
    + pose proof (rows_zlen _ _ R) as LA. rewrite !zlen_app, !zlen_map, zlen_cons, zlen_app in LA. pose proof (zlen_nonneg J).
      destruct (replace_rows ra _ (zlen pre) (Slot (s_key s) p t) R) as (r&->&R1&T1&A1); try lia.
      assert (Em : exists m G2, G ++ map tri (s :: mid ++ suf) ++ J = m :: G2 ++ map tri (mid ++ suf) ++ J /\ zlen G2 = zlen G).
      { destruct G as [|m G']; [exists (tri s), []; auto|]. exists m, (G' ++ [tri s]). split; [cbn [app map]; now rewrite <- app_assoc|unfold zlen; rewrite app_length; cbn [length]; lia]. }
      destruct Em as (m&G2&Em&L2). rewrite Em in R1. pose proof (paste_app (map tri pre) [m] (G2 ++ map tri (mid ++ suf) ++ J) [tri (Slot (s_key s) p t)] (zlen pre) ltac:(apply zlen_map) eq_refl) as Q. cbn [app] in Q. rewrite Q in R1. clear Q.
      destruct (IH r (pre ++ [Slot (s_key s) p t]) G2 mid suf J) as (r'&G'&E'&R'&T'&A').
      { rewrite map_app, <- app_assoc. exact R1. } { rewrite zlen_app. change (zlen [Slot (s_key s) p t]) with 1. lia. } { exact F. } { intros x X. apply BM. now right. } { exact BS. } { lia. }
      rewrite zlen_app in E' at 1. rewrite zlen_app in E' at 1. change (zlen [Slot (s_key s) p t]) with 1 in E'. rewrite <- app_assoc in E', R'. cbn [app] in E', R'. exists r', G'. split; [|split; [exact R'|lia]].
      cbn [app]. rewrite <- E'. f_equal; lia.
    + cbn [app]. destruct (IH ra pre (G ++ [tri s]) mid suf J) as (r'&G'&E'&R'&T'&A').
      { rewrite <- app_assoc. exact R. } { rewrite zlen_app. change (zlen [tri s]) with 1. lia. } { exact F. } { intros x X. apply BM. now right. } { exact BS. } { lia. }
      exists r', G'. split; [|split; [exact R'|lia]]. rewrite <- E'. f_equal. rewrite zlen_app. change (zlen [tri s]) with 1. lia.
Qed.
Lemma edited_ok g l : (forall k o p t, g k o = Some (p, t) -> 0 <= p < 2 ^ 64 /\ 0 <= t < 2 ^ 8) -> Forall slot_ok l -> Forall slot_ok (flat_map (edited g) l).
Proof.
  intros G F. induction F as [|s l (K&_) F IH]; cbn [flat_map]; [constructor|]. apply ok_app. split; auto. unfold edited. destruct (g _ _) as [(p, t)|] eqn:E; [|constructor]. repeat constructor; cbn [s_key s_ptr s_kind]; try apply K; apply G in E; tauto.
Qed.
Lemma remove_range_closed_ok ra l lo hi g : holds ra l -> by_key l -> 0 <= lo <= hi -> (forall k o p t, g k o = Some (p, t) -> 0 <= p < 2 ^ 64 /\ 0 <= t < 2 ^ 8) ->
  exists r, remove_range_closed ra lo hi g = Some r /\ holds r (below lo l ++ flat_map (edited g) (between lo hi l) ++ above hi l).
Proof.
  intros H S LH G. pose proof (holds_size _ _ H) as (T&A&P). pose proof (key_split lo hi l S ltac:(lia)) as El. pose proof (by_key_incr l S) as I. destruct H as ((J&R)&_&_&F).
  pose proof (in_below lo l) as Bp. pose proof (in_between lo hi l) as Bm. pose proof (in_above hi l) as Bs. set (pre := below lo l) in *. set (mid := between lo hi l) in *. set (suf := above hi l) in *.
  unfold remove_range_closed. rewrite T, (count_less_keys_ok ra l J lo R F I). clearbody pre mid suf. subst l.
  rewrite !map_app, !lb_app. rewrite (lb_keys_all pre) by (intros x X; specialize (Bp x X); lia). rewrite (lb_keys_none mid) by (intros x X; specialize (Bm x X); lia). rewrite (lb_keys_none suf) by (intros x X; specialize (Bs x X); lia). rewrite !Z.add_0_r.
  apply ok_app in F as (Fp&Fr). pose proof Fr as Fr'. apply ok_app in Fr' as (Fm&Fs). rewrite !zlen_app in *. pose proof (zlen_nonneg pre). pose proof (zlen_nonneg mid). pose proof (zlen_nonneg suf).
  destruct (drop_loop_ok g hi (Datatypes.S (Z.to_nat (zlen pre + (zlen mid + zlen suf)))) ra pre [] mid suf J) as (r&G'&E&R'&T'&A'); auto.
  { rewrite map_app, <- app_assoc in R. exact R. } { change (zlen (@nil row)) with 0. lia. } { intros x X. specialize (Bm x X). lia. } { lia. }
  change (zlen (@nil row)) with 0 in E. rewrite Z.add_0_r in E. rewrite E. set (out := flat_map (edited g) mid) in *. assert (Fo : Forall slot_ok out) by now apply edited_ok.
  pose proof (rows_zlen _ _ R') as LA. rewrite !zlen_app, !zlen_map, zlen_app in LA. rewrite zlen_app in *. pose proof (zlen_nonneg out). pose proof (zlen_nonneg G'). pose proof (zlen_nonneg J).
  (* every slot of the range was read once *)
  assert (LG : zlen out + zlen G' = zlen mid). { pose proof (rows_zlen _ _ R) as LB. rewrite !map_app, !zlen_app, !zlen_map in LB. lia. }
  assert (FF : Forall slot_ok (pre ++ out ++ suf)) by (apply ok_app; split; auto; apply ok_app; auto).
  destruct (Z.ltb_spec (zlen pre + zlen out) (zlen pre + zlen out + zlen G')) as [C|C].
  - destruct (shift_down_ok r (pre ++ out) G' suf J R') as (r2&J2&E2&R2&T2&A2); [rewrite zlen_app; lia|].
    replace (tsize r - (zlen pre + zlen out + zlen G')) with (zlen suf) by lia. replace (zlen pre + zlen out - (zlen pre + zlen out + zlen G')) with (- zlen G') by lia. exists r2. split; auto. split; [exists J2; rewrite <- app_assoc in R2; exact R2|]. split; [rewrite T2, <- app_assoc; reflexivity|]. split; [lia|exact FF].
  - exists r. split; auto. destruct G' as [|? G']; [|rewrite zlen_cons in *; pose proof (zlen_nonneg G'); lia]. split; [exists J; rewrite app_assoc, map_app, <- app_assoc; exact R'|]. change (zlen (@nil row)) with 0 in LG. split; [rewrite !zlen_app; lia|]. split; [lia|exact FF].
Qed.
(** ** Programs *)
Lemma size_of_zlen l : size_of l = zlen l. Proof. reflexivity. Qed.
Theorem tab_step_ok c ra l : holds ra l -> tok c l -> exists r, tab_step c ra = Some r /\ holds r (tstep c l).
Proof.
  intros H O. unfold max_slots in *. destruct c; cbn [tab_step tstep tok] in *; rewrite ?size_of_zlen in *; unfold max_slots in *.
  - apply append_ok; tauto.
  - apply insert_ok; tauto.
  - now apply remove_ok.
  - apply replace_ok; tauto.
  - apply set_ok; tauto.
  - now apply downsize_ok.
  - destruct (slide_ok ra l b e n H) as (r&r'&->&E&H'); try tauto. eauto.
  - destruct (shrink_ok ra l H) as (r&sv&->&H'&_). eauto.
  - apply add_range_closed_ok; tauto.
  - apply remove_range_closed_ok; tauto.
Qed.
Theorem tab_run_ok : forall p ra l, holds ra l -> tlegal p l -> exists r, tab_run p ra = Some r /\ holds r (trun p l).
Proof.
  induction p as [|c p IH]; intros ra l H L; cbn [tab_run trun tlegal] in *; [eauto|]. destruct L as (O&L). destruct (tab_step_ok c ra l H O) as (r&->&H'). now apply IH.
Qed.
(** ** Looking up a key *)
Theorem get_index_ok ra l k : holds ra l -> by_key l ->
  exists i, ra_get_index ra k = Some i /\ (0 <= i -> exists s, find_key k l = Some s /\ take 1 (drop i l) = [s] /\ key ra i = Some k /\ ptr ra i = Some (s_ptr s) /\ kind ra i = Some (s_kind s)) /\
    (i < 0 -> find_key k l = None /\ - i - 1 = zlen (below k l)).
Proof.
  intros H S. pose proof (holds_size _ _ H) as (T&A&P). destruct H as ((J&R)&_&_&F). pose proof (by_key_incr l S) as I. unfold ra_get_index. rewrite T.
  assert (HIT : forall i, 0 <= i < zlen l -> znth (map s_key l) i = k -> exists s, find_key k l = Some s /\ take 1 (drop i l) = [s] /\ key ra i = Some k /\ ptr ra i = Some (s_ptr s) /\ kind ra i = Some (s_kind s)).
  { intros i Hi E. destruct (on_slot l i Hi) as (a&s&b&El&La&_&_&Et). exists s. subst l. assert (Ek : s_key s = k). { rewrite map_app in E. cbn [map] in E. rewrite <- La, <- (zlen_map s_key a), znth_mid in E. exact E. }
    rewrite map_app in I. apply incr_app in I as (_&_&C). split; [|split; [exact Et|]].
    - rewrite find_key_app, find_key_none. { unfold find_key. cbn [find]. now rewrite (proj2 (Z.eqb_eq _ _) Ek). } intros x X. pose proof (C (s_key x) (s_key s) ltac:(now apply in_map) ltac:(now left)). lia.
    - rewrite map_app, <- app_assoc in R. cbn [map app] in R. apply ok_app in F as (_&F). apply ok_cons in F as (O&_). destruct (row_at ra _ s _ i R O) as (->&->&->); [now rewrite zlen_map|]. rewrite Ek. auto. }
  destruct (Z.eqb_spec (zlen l) 0) as [Z0|Z0].
  { exists (zlen l - 1). split; auto. split; [lia|]. destruct l as [|? l]; [|rewrite zlen_cons in Z0; pose proof (zlen_nonneg l); lia]. intros _. split; reflexivity. }
  rewrite (key_at ra l J) by (auto; lia). destruct (Z.eqb_spec (znth (map s_key l) (zlen l - 1)) k) as [E|E].
  { exists (zlen l - 1). split; auto. split; [|lia]. intros _. apply HIT; auto. lia. }
  rewrite (binarySearch_keys_ok ra l J k R F). exists (binarySearch (map s_key l) k). split; auto. rewrite binarySearch_spec by auto. pose proof (lb_bound (map s_key l) k) as B. rewrite zlen_map in B. destruct (zmem k (map s_key l)) eqn:M.
  - apply zmem_In, (lb_In _ _ I) in M as (M1&M2). rewrite zlen_map in M1. split; [intros _; apply HIT; auto; lia|lia].
  - split; [lia|]. intros _. split.
    + apply find_key_none. intros x X Q. assert (X2 : In k (map s_key l)) by (rewrite <- Q; now apply in_map). apply zmem_In in X2. congruence.
    + unfold lb. replace (- - (zlen (filter (fun y => y <? k) (map s_key l)) + 1) - 1) with (zlen (filter (fun y => y <? k) (map s_key l))) by lia. unfold below. clear. induction l as [|s t IH]; [reflexivity|]. cbn [map filter]. destruct (s_key s <? k); [rewrite !zlen_cons; lia|exact IH].
Qed.
(** ** Reading a table *)
Fixpoint read_rows (n : nat) (ra : table) (i : Z) : option (list slot) :=
  match n with
  | O => Some []
  | S n' => do k <- key ra i; do p <- ptr ra i; do t <- kind ra i; do r <- read_rows n' ra (i + 1); Some (Slot k p t :: r)
  end.
(** the first [size] entries of the three arrays *)
Definition read_table (ra : table) : option (list slot) := read_rows (Z.to_nat (tsize ra)) ra 0.
Lemma read_rows_ok ra J : forall b a, rows ra (map tri (a ++ b) ++ J) -> Forall slot_ok b -> read_rows (length b) ra (zlen a) = Some b.
Proof.
  induction b as [|s b IH]; intros a R F; [reflexivity|]. cbn [length read_rows]. apply ok_cons in F as (O&F). pose proof R as R'. rewrite map_app, <- app_assoc in R'. cbn [map app] in R'. destruct (row_at ra _ s _ (zlen a) R' O) as (->&->&->); [apply zlen_map|].
  specialize (IH (a ++ [s])). rewrite zlen_app in IH. change (zlen [s]) with 1 in IH. rewrite IH; auto; [now destruct s|]. rewrite <- app_assoc. exact R.
Qed.
Theorem read_table_ok ra l : holds ra l -> read_table ra = Some l /\ zlen (blk ra) = 11 * alloc ra /\ zlen l <= alloc ra <= 65536.
Proof.
  intros H. pose proof (holds_size _ _ H) as (T&A&P). destruct H as ((J&R)&_&_&F). split; [|split; [exact (rows_bytes _ _ R)|exact A]]. unfold read_table. rewrite T. unfold zlen. rewrite Nat2Z.id. exact (read_rows_ok ra J l [] R F).
Qed.
(** ** Statements for the properties *)
Theorem table_program cap p : 0 <= cap -> tlegal p [] -> exists ra, tab_run p (ra_init_with_capacity cap) = Some ra /\
  read_table ra = Some (trun p []) /\ zlen (blk ra) = 11 * alloc ra /\ size_of (trun p []) <= alloc ra <= 65536.
Proof.
  intros C L. destruct (init_with_capacity_holds cap C) as (H&_). destruct (tab_run_ok p _ _ H L) as (r&E&H'). exists r. split; auto. rewrite size_of_zlen. now apply read_table_ok.
Qed.
Theorem table_lookup cap p k : 0 <= cap -> tlegal p [] -> by_key (trun p []) -> exists ra i, tab_run p (ra_init_with_capacity cap) = Some ra /\ ra_get_index ra k = Some i /\
  (0 <= i -> exists s, find_key k (trun p []) = Some s /\ key ra i = Some k /\ ptr ra i = Some (s_ptr s) /\ kind ra i = Some (s_kind s)) /\
  (i < 0 -> find_key k (trun p []) = None /\ - i - 1 = size_of (below k (trun p []))).
Proof.
  intros C L S. destruct (init_with_capacity_holds cap C) as (H&_). destruct (tab_run_ok p _ _ H L) as (r&E&H'). destruct (get_index_ok r _ k H' S) as (i&Ei&A&B). exists r, i. split; auto. split; auto. split; [|exact B].
  intros I. destruct (A I) as (s&Q1&_&Q2&Q3&Q4). exists s. auto.
Qed.
Theorem table_shrink cap p : 0 <= cap -> tlegal p [] -> exists ra ra' savings, tab_run p (ra_init_with_capacity cap) = Some ra /\ ra_shrink_to_fit ra = Some (ra', savings) /\
  read_table ra' = Some (trun p []) /\ zlen (blk ra') = 11 * size_of (trun p []) /\ savings = zlen (blk ra) - zlen (blk ra').
Proof.
  intros C L. destruct (init_with_capacity_holds cap C) as (H&_). destruct (tab_run_ok p _ _ H L) as (r&E&H'). destruct (shrink_ok r _ H') as (r'&sv&E'&H2&A2&S2). exists r, r', sv. split; auto. split; auto. destruct (read_table_ok _ _ H2) as (Q1&Q2&_). split; auto. split; [|exact S2]. rewrite size_of_zlen. lia.
Qed.
