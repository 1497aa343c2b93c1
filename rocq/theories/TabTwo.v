(** TabTwo: two tables of chunks in memory: appending from one to the other and copying
    (src/roaring_array.c:126-167, 223-318).

    Same conventions as in [TabMem].  get_copy_of_container and container_clone are
    parameters ([how]); a clone is never NULL (memory suffices and no shared container is
    cloned).  The two tables are distinct. *)
From Coq Require Import ZArith List Bool Lia Sorted.
From Verif Require Import Base ArrayUtil Bytes SpecTab TabMem.
Import ListNotations.
Local Open Scope Z_scope.

(** ** Code *)
(** the body of the loops of ra_append_copy (223-242), ra_append_copy_range (252-271),
    ra_append_move_range (283-295) and ra_append_range (297-318): entry i of sa goes to the
    end of ra *)
Definition append_turn (h : how) (ra sa : table) (i : Z) : option (table * table) :=
  let pos := tsize ra in
  do k <- key sa i;
  do r <- set_key ra pos k;
  do x <- (match h with
    | Move =>
      do p <- ptr sa i; do r <- set_ptr r pos p;
      do t <- kind sa i; do r <- set_kind r pos t; Some (r, sa)
    | Share f =>
      do p <- ptr sa i; do t <- kind sa i;
      let '(p', t') := f (p, t) in
      do sa <- set_kind sa i t'; do sa <- set_ptr sa i p';
      do p <- ptr sa i; do r <- set_ptr r pos p;
      do t <- kind sa i; do r <- set_kind r pos t; Some (r, sa)
    | Clone f =>
      do p <- ptr sa i; do t <- kind sa i;
      do r <- set_ptr r pos (f (p, t));
      do t <- kind sa i; do r <- set_kind r pos t; Some (r, sa)
    end);
  let '(r, sa) := x in
  Some (with_size r (tsize r + 1), sa).
Fixpoint append_loop (n : nat) (h : how) (ra sa : table) (i : Z) : option (table * table) :=
  match n with
  | O => Some (ra, sa)
  | S n' => do x <- append_turn h ra sa i; append_loop n' h (fst x) (snd x) (i + 1)
  end.
(** 252-271, 283-295, 297-318 *)
Definition ra_append_range (h : how) (ra sa : table) (start_index end_index : Z) : option (table * table) :=
  do r <- extend_array ra (end_index - start_index);
  append_loop (Z.to_nat (end_index - start_index)) h r sa start_index.
(** 223-242 *)
Definition ra_append_copy (h : how) (ra sa : table) (index : Z) : option (table * table) :=
  do r <- extend_array ra 1; append_turn h r sa index.
(** 244-250; the index is cast to uint16_t *)
Fixpoint until_loop (fuel : nat) (h : how) (ra sa : table) (stopping_key i : Z) : option (table * table) :=
  match fuel with
  | O => None
  | S f =>
    if i <? tsize sa then
      do k <- key sa i;
      if stopping_key <=? k then Some (ra, sa)
      else do x <- ra_append_copy h ra sa (i mod 2 ^ 16); until_loop f h (fst x) (snd x) stopping_key (i + 1)
    else Some (ra, sa)
  end.
Definition ra_append_copies_until (h : how) (ra sa : table) (stopping_key : Z) : option (table * table) :=
  until_loop (S (Z.to_nat (tsize sa))) h ra sa stopping_key 0.
(** 273-281 *)
Definition ra_append_copies_after (h : how) (ra sa : table) (before_start : Z) : option (table * table) :=
  do start_location <- ra_get_index sa before_start;
  let start_location := if 0 <=? start_location then start_location + 1 else - start_location - 1 in
  ra_append_range h ra sa start_location (tsize sa).
(** the loop of 142-145 over the source *)
Fixpoint share_loop (n : nat) (f : Z * Z -> Z * Z) (sa : table) (i : Z) : option table :=
  match n with
  | O => Some sa
  | S n' =>
    do p <- ptr sa i; do t <- kind sa i;
    let '(p', t') := f (p, t) in
    do sa <- set_kind sa i t'; do sa <- set_ptr sa i p'; share_loop n' f sa (i + 1)
  end.
(** the loop of 154-163 over both *)
Fixpoint clone_loop (n : nat) (f : Z * Z -> Z) (dest src : table) (i : Z) : option table :=
  match n with
  | O => Some dest
  | S n' => do p <- ptr src i; do t <- kind src i; do d <- set_ptr dest i (f (p, t)); clone_loop n' f d src (i + 1)
  end.
(** 169-173: every pointer and kind is read *)
Definition ra_clear_containers (ra : table) : option unit := do _ <- read_table ra; Some tt.
(** 126-167; [Move] does not occur *)
Definition ra_overwrite (h : how) (dest source : table) : option (table * table) :=
  do _ <- ra_clear_containers dest;
  if tsize source =? 0 then Some (with_size dest 0, source)
  else
    do dest <- (if alloc dest <? tsize source then realloc_array dest (tsize source) else Some dest);
    let dest := with_size dest (tsize source) in
    do m <- mv (blk dest) (keys_at dest) (blk source) (keys_at source) (2 * tsize dest);
    let dest := with_blk dest m in
    match h with
    | Move => None
    | Share f =>
      do source <- share_loop (Z.to_nat (tsize dest)) f source 0;
      do m <- mv (blk dest) 0 (blk source) 0 (8 * tsize dest);
      let dest := with_blk dest m in
      do m <- mv (blk dest) (kinds_at dest) (blk source) (kinds_at source) (tsize dest);
      Some (with_blk dest m, source)
    | Clone f =>
      do m <- mv (blk dest) (kinds_at dest) (blk source) (kinds_at source) (tsize dest);
      let dest := with_blk dest m in
      do dest <- clone_loop (Z.to_nat (tsize dest)) f dest source 0;
      Some (dest, source)
    end.
Definition pair_step (c : pcmd) (x : table * table) : option (table * table) :=
  let '(ra, sa) := x in
  match c with
  | PFirst c => do r <- tab_step c ra; Some (r, sa)
  | PSecond c => do s <- tab_step c sa; Some (ra, s)
  | PRange h b e => ra_append_range h ra sa b e
  | PUntil h k => ra_append_copies_until h ra sa k
  | PAfter h k => ra_append_copies_after h ra sa k
  | POverwrite h => ra_overwrite h ra sa
  end.
Fixpoint pair_run (p : list pcmd) (x : table * table) : option (table * table) :=
  match p with [] => Some x | c :: p' => do y <- pair_step c x; pair_run p' y end.

(** ** Proofs *)
Definition grows (ra : table) (l : list slot) (n : Z) : Prop := exists J, rows ra (map tri l ++ J) /\ tsize ra = zlen l /\ n <= zlen J /\ alloc ra <= 65536.
Lemma how_ok_slot h s : how_ok h -> slot_ok s -> slot_ok (copied h s) /\ slot_ok (left_behind h s).
Proof.
  intros H (K&P&T). assert (C : slot_ok (copied h s)).
  { destruct h as [|f|f]; cbn [copied how_ok] in *; [repeat split; tauto| |].
    - specialize (H (s_ptr s, s_kind s)). destruct (f (s_ptr s, s_kind s)) as (p, t). cbn [fst snd] in H. split; [exact K|exact H].
    - specialize (H (s_ptr s, s_kind s)). split; [exact K|]. cbn [s_ptr s_kind]. split; [lia|exact T]. }
  split; [exact C|]. destruct h; cbn [left_behind]; auto; repeat split; tauto.
Qed.
Lemma all_ok h l : how_ok h -> Forall slot_ok l -> Forall slot_ok (map (copied h) l) /\ Forall slot_ok (map (left_behind h) l).
Proof. intros H F. split; apply Forall_forall; intros x X; apply in_map_iff in X as (s&<-&X); rewrite Forall_forall in F; now apply (how_ok_slot h s H (F s X)). Qed.
(** replacing one entry *)
Lemma share_row sa a s b p t i : rows sa (a ++ tri s :: b) -> zlen a = i ->
  exists x y, set_kind sa i t = Some x /\ set_ptr x i p = Some y /\ rows y (a ++ tri (Slot (s_key s) p t) :: b) /\ tsize y = tsize sa /\ alloc y = alloc sa.
Proof.
  intros R I. pose proof (rows_zlen _ _ R) as L. rewrite zlen_app, zlen_cons in L. pose proof (zlen_nonneg a). pose proof (zlen_nonneg b). unfold rows in R.
  destruct (set_kind_ok _ _ _ _ i t R) as (x&E1&R1&T1&A1); [lia|]. destruct (set_ptr_ok _ _ _ _ i p R1) as (y&E2&R2&T2&A2); [lia|]. exists x, y. split; auto. split; auto. split; [|lia].
  unfold rows. rewrite !map_app in *. cbn [map] in *.
  assert (Q : forall (f : row -> block) u v, paste (map f a ++ u :: map f b) i [v] = map f a ++ v :: map f b).
  { intros f u v. exact (paste_app (map f a) [u] (map f b) [v] i ltac:(now rewrite zlen_map) eq_refl). }
  rewrite !Q in R2. exact R2.
Qed.
(** one turn: the new entry, the entry left behind *)
Lemma append_turn_ok h ra l n sa a s b i : how_ok h -> slot_ok s -> grows ra l n -> 0 < n -> rows sa (a ++ tri s :: b) -> zlen a = i ->
  exists r s', append_turn h ra sa i = Some (r, s') /\ grows r (l ++ [copied h s]) (n - 1) /\ rows s' (a ++ tri (left_behind h s) :: b) /\ tsize s' = tsize sa /\ alloc s' = alloc sa /\ alloc r = alloc ra.
Proof.
  intros H O (J&R&T&NJ&A) N RS I. destruct (row_at sa a s b i RS O I) as (K&P&Y). destruct J as [|j J]; [change (zlen (@nil row)) with 0 in NJ; lia|]. pose proof (rows_zlen _ _ R) as LA. rewrite zlen_app, zlen_map, zlen_cons in *. pose proof (zlen_nonneg J). pose proof (zlen_nonneg l).
  assert (PUT : forall u, exists r1 r2 r3, set_key ra (tsize ra) (s_key u) = Some r1 /\ set_ptr r1 (tsize ra) (s_ptr u) = Some r2 /\ set_kind r2 (tsize ra) (s_kind u) = Some r3 /\ grows (with_size r3 (tsize r3 + 1)) (l ++ [u]) (n - 1) /\ alloc r3 = alloc ra).
  { intros u. destruct (put_row ra _ (tsize ra) u R) as (r&E&R'&T'&A'); [lia|]. destruct (set_key ra (tsize ra) (s_key u)) as [r1|]; [|discriminate]. destruct (set_ptr r1 (tsize ra) (s_ptr u)) as [r2|] eqn:E2; [|discriminate]. exists r1, r2, r. split; auto. split; auto. split; auto. split; [|exact A'].
    exists J. cbn [tsize alloc with_size]. split; [|split; [rewrite zlen_app; change (zlen [u]) with 1; lia|lia]]. apply (rows_shape _ _ (map tri (l ++ [u]) ++ J)) in R'; [exact R'|]. rewrite map_app, <- app_assoc. cbn [map]. apply (paste_app (map tri l) [j] J [tri u]); [|reflexivity]. rewrite zlen_map. lia. }
  unfold append_turn. rewrite K. destruct h as [|f|f]; cbn [copied left_behind how_ok] in *.
  - destruct (PUT s) as (r1&r2&r3&->&E2&E3&G&AA). rewrite P, E2, Y, E3. exists (with_size r3 (tsize r3 + 1)), sa. auto 10.
  - rewrite P, Y. pose proof (H (s_ptr s, s_kind s)) as B. destruct (f (s_ptr s, s_kind s)) as (p, t) eqn:Ef. cbn [fst snd] in B. destruct (PUT (Slot (s_key s) p t)) as (r1&r2&r3&E1&E2&E3&G&AA). cbn [s_key s_ptr s_kind] in *. rewrite E1.
    destruct (share_row sa a s b p t i RS I) as (x&y&->&->&R2&T2&A2). destruct (row_at y a _ b i R2) as (_&->&->); [repeat split; cbn [s_key s_ptr s_kind]; try apply O; tauto|auto|]. cbn [s_ptr s_kind]. rewrite E2, E3. exists (with_size r3 (tsize r3 + 1)), y. auto 10.
  - destruct (PUT (Slot (s_key s) (f (s_ptr s, s_kind s)) (s_kind s))) as (r1&r2&r3&E1&E2&E3&G&AA). cbn [s_key s_ptr s_kind] in *. rewrite E1, P, Y, E2, E3. exists (with_size r3 (tsize r3 + 1)), sa. auto 10.
Qed.
Lemma append_loop_ok h : how_ok h -> forall w ra l sa a b J, Forall slot_ok w -> grows ra l (zlen w) -> rows sa (map tri (a ++ w ++ b) ++ J) ->
  exists r s', append_loop (length w) h ra sa (zlen a) = Some (r, s') /\ grows r (l ++ map (copied h) w) 0 /\ rows s' (map tri (a ++ map (left_behind h) w ++ b) ++ J) /\ tsize s' = tsize sa /\ alloc s' = alloc sa.
Proof.
  intros H. induction w as [|s w IH]; intros ra l sa a b J F G R; cbn [length append_loop map].
  - exists ra, sa. rewrite app_nil_r. auto.
  - apply ok_cons in F as (O&F). rewrite zlen_cons in G. pose proof (zlen_nonneg w). rewrite map_app, <- app_assoc in R. cbn [map app] in R.
    destruct (append_turn_ok h ra l (zlen w + 1) sa (map tri a) s (map tri (w ++ b) ++ J) (zlen a) H O G) as (r1&s1&->&G1&R1&T1&A1&_); [lia|exact R|apply zlen_map|]. cbn [fst snd]. replace (zlen w + 1 - 1) with (zlen w) in G1 by lia.
    destruct (IH r1 (l ++ [copied h s]) s1 (a ++ [left_behind h s]) b J F G1) as (r2&s2&E2&G2&R2&T2&A2).
    { rewrite <- app_assoc, map_app, <- app_assoc. exact R1. }
    rewrite zlen_app in E2. change (zlen [left_behind h s]) with 1 in E2. exists r2, s2. rewrite <- app_assoc in G2, R2. split; auto. split; auto. split; auto. lia.
Qed.
Lemma grows_holds ra l : grows ra l 0 -> Forall slot_ok l -> holds ra l.
Proof. intros (J&R&T&_&A) F. split; eauto. Qed.
Lemma cut3 m b e : 0 <= b <= e -> e <= zlen m -> exists x y z, m = x ++ y ++ z /\ take b m = x /\ take (e - b) (drop b m) = y /\ drop e m = z /\ zlen x = b /\ zlen y = e - b.
Proof.
  intros B E. destruct (split3 m b (e - b)) as (x&y&z&Em&Lx&Ly); try lia. exists x, y, z. split; auto. subst m. unfold take, drop, zlen in *. split; [apply firstn_app_l; lia|]. split; [rewrite skipn_app_l by lia; apply firstn_app_l; lia|]. split; [rewrite app_assoc; apply skipn_app_l; rewrite app_length; lia|auto].
Qed.
Lemma append_range_ok h ra l sa x y z : how_ok h -> holds ra l -> holds sa (x ++ y ++ z) -> zlen l + zlen y <= 65536 ->
  exists r s', ra_append_range h ra sa (zlen x) (zlen x + zlen y) = Some (r, s') /\ holds r (l ++ map (copied h) y) /\ holds s' (x ++ map (left_behind h) y ++ z).
Proof.
  intros H HR HS L. unfold ra_append_range. replace (zlen x + zlen y - zlen x) with (zlen y) by lia. pose proof (zlen_nonneg y).
  destruct (extend_array_ok ra l (zlen y) HR) as (r&J&->&R&NJ&T&A); try lia. pose proof (holds_size _ _ HR) as (TT&_). destruct HR as (_&_&_&FL). destruct HS as ((JS&RS)&TS&AS&FS).
  pose proof FS as F2. apply ok_app in F2 as (Fx&F2). apply ok_app in F2 as (Fy&Fz).
  replace (Z.to_nat (zlen y)) with (length y) by (unfold zlen; lia).
  destruct (append_loop_ok h H y r l sa x z JS Fy) as (r'&s'&E&G&R'&T'&A'); [exists J; split; [exact R|split; [lia|split; [lia|exact A]]]|exact RS|].
  destruct (all_ok h y H Fy) as (F3&F4). exists r', s'. split; auto. split; [apply grows_holds; auto; apply ok_app; auto|]. split; [eauto|]. split; [rewrite T', TS, !zlen_app, zlen_map; reflexivity|]. split; [lia|]. apply ok_app. split; auto. apply ok_app. auto.
Qed.
Lemma key_split2 k l : by_key l -> l = below k l ++ above (k - 1) l.
Proof.
  intros S. unfold by_key in S. unfold below, above. induction l as [|s t IH]; [reflexivity|]. cbn [map] in S. inversion S as [|? ? S' F]; subst. specialize (IH S').
  assert (G : forall x, In x t -> s_key s < s_key x) by (intros x X; rewrite Forall_forall in F; apply F; now apply in_map).
  cbn [filter]. destruct (Z.ltb_spec (s_key s) k) as [A|A].
  - replace (k - 1 <? s_key s) with false by lia. cbn [app]. f_equal. exact IH.
  - replace (k - 1 <? s_key s) with true by lia. rewrite (filter_none _ t), (filter_all _ t); auto; intros x X; specialize (G x X); lia.
Qed.
Lemma until_loop_ok h k : how_ok h -> forall w fuel ra l sa a z J, holds ra l -> rows sa (map tri (a ++ w ++ z) ++ J) -> tsize sa = zlen (a ++ w ++ z) -> tsize sa <= 65536 -> Forall slot_ok (w ++ z) ->
  (forall x, In x w -> s_key x < k) -> (forall x, In x z -> k <= s_key x) -> zlen l + zlen w <= 65536 -> zlen w < Z.of_nat fuel ->
  exists r s', until_loop fuel h ra sa k (zlen a) = Some (r, s') /\ holds r (l ++ map (copied h) w) /\ rows s' (map tri (a ++ map (left_behind h) w ++ z) ++ J) /\ tsize s' = tsize sa /\ alloc s' = alloc sa.
Proof.
  intros H. induction w as [|s w IH]; intros fuel ra l sa a z J HR RS TS B F BW BZ L N; (destruct fuel as [|fuel]; [match type of N with zlen ?v < _ => pose proof (zlen_nonneg v) end; lia|]); cbn [until_loop].
  - exists ra, sa. cbn [map app]. rewrite app_nil_r. split; [|auto]. cbn [app] in *. rewrite zlen_app in TS. destruct z as [|x z].
    + replace (zlen a <? tsize sa) with false; [reflexivity|]. change (zlen (@nil slot)) with 0 in TS. lia.
    + rewrite zlen_cons in TS. pose proof (zlen_nonneg z). replace (zlen a <? tsize sa) with true by lia. rewrite map_app, <- app_assoc in RS. cbn [map app] in RS. apply ok_cons in F as (O&_). destruct (row_at sa _ x _ (zlen a) RS O) as (->&_); [apply zlen_map|]. specialize (BZ x (or_introl eq_refl)). replace (k <=? s_key x) with true by lia. reflexivity.
  - rewrite zlen_cons in *. cbn [app] in F. apply ok_cons in F as (O&F). pose proof (zlen_nonneg w). pose proof (zlen_nonneg z). pose proof (zlen_nonneg a). pose proof TS as TS'. rewrite zlen_app in TS'. cbn [app] in TS'. rewrite zlen_cons, zlen_app in TS'. replace (zlen a <? tsize sa) with true by lia. pose proof RS as R0. rewrite map_app, <- app_assoc in R0. cbn [map app] in R0.
    destruct (row_at sa _ s _ (zlen a) R0 O) as (->&_); [apply zlen_map|]. pose proof (BW s (or_introl eq_refl)). replace (k <=? s_key s) with false by lia. rewrite Z.mod_small by lia.
    unfold ra_append_copy. destruct (extend_array_ok ra l 1 HR) as (r&J2&->&R&NJ&T&A); try lia. pose proof (holds_size _ _ HR) as (TT&_). destruct HR as (_&_&_&FL).
    destruct (append_turn_ok h r l 1 sa (map tri a) s (map tri (w ++ z) ++ J) (zlen a) H O) as (r1&s1&->&G1&R1&T1&A1&_); [exists J2; split; [exact R|split; [lia|split; [lia|exact A]]]|lia|exact R0|apply zlen_map|]. cbn [fst snd].
    assert (HR1 : holds r1 (l ++ [copied h s])). { apply grows_holds; [exact G1|]. apply ok_app. split; auto. constructor; auto. now apply how_ok_slot. }
    destruct (IH fuel r1 (l ++ [copied h s]) s1 (a ++ [left_behind h s]) z J HR1) as (r2&s2&E2&HR2&R2&T2&A2); auto.
    { rewrite <- app_assoc, map_app, <- app_assoc. exact R1. } { rewrite T1, <- app_assoc, !zlen_app. change (zlen [left_behind h s]) with 1. lia. } { lia. } { intros x X. apply BW. now right. } { rewrite zlen_app. change (zlen [copied h s]) with 1. lia. } { lia. }
    rewrite zlen_app in E2. change (zlen [left_behind h s]) with 1 in E2. exists r2, s2. rewrite <- app_assoc in HR2, R2. split; auto. split; auto. split; auto. lia.
Qed.
Lemma until_ok h ra l sa m k : how_ok h -> holds ra l -> holds sa m -> by_key m -> zlen l + zlen (below k m) <= 65536 ->
  exists r s', ra_append_copies_until h ra sa k = Some (r, s') /\ holds r (l ++ map (copied h) (below k m)) /\ holds s' (map (left_behind h) (below k m) ++ above (k - 1) m).
Proof.
  intros H HR HS S L. pose proof (key_split2 k m S) as E. pose proof (in_below k m) as Bw. pose proof (in_above (k - 1) m) as Bz. set (w := below k m) in *. set (z := above (k - 1) m) in *. clearbody w z. subst m.
  pose proof (holds_size _ _ HS) as (TS&AS&_). destruct HS as ((J&RS)&_&_&F). pose proof F as F2. apply ok_app in F2 as (Fw&Fz). unfold ra_append_copies_until.
  destruct (until_loop_ok h k H w (Datatypes.S (Z.to_nat (tsize sa))) ra l sa [] z J HR RS) as (r&s'&E&H'&R'&T'&A'); auto; [lia|intros x X; specialize (Bz x X); lia|rewrite TS, zlen_app; pose proof (zlen_nonneg z); pose proof (zlen_nonneg w); lia|].
  exists r, s'. split; auto. split; auto. split; [eauto|]. destruct (all_ok h w H Fw) as (_&F4). split; [rewrite T', TS, !zlen_app, zlen_map; reflexivity|]. split; [lia|]. apply ok_app. auto.
Qed.
Lemma after_ok h ra l sa m k : how_ok h -> holds ra l -> holds sa m -> by_key m -> zlen l + zlen (above k m) <= 65536 ->
  exists r s', ra_append_copies_after h ra sa k = Some (r, s') /\ holds r (l ++ map (copied h) (above k m)) /\ holds s' (below (k + 1) m ++ map (left_behind h) (above k m)).
Proof.
  intros H HR HS S L. destruct (get_index_ok sa m k HS S) as (i&Ei&HIT&MISS). unfold ra_append_copies_after. rewrite Ei.
  pose proof (key_split2 (k + 1) m S) as E. replace (k + 1 - 1) with k in E by lia.
  assert (LOC : (if 0 <=? i then i + 1 else - i - 1) = zlen (below (k + 1) m)).
  { destruct (Z.leb_spec 0 i) as [P|P].
    - destruct (HIT P) as (s&Fs&Et&_). assert (I : i < zlen m). { destruct (Z.lt_ge_cases i (zlen m)) as [Q|Q]; auto. exfalso. unfold drop in Et. rewrite skipn_all2 in Et by (unfold zlen in Q; lia). discriminate. }
      destruct (on_slot m i ltac:(lia)) as (a&s'&b&Em&La&_&_&Et'). rewrite Et in Et'. injection Et' as <-. assert (Ks : s_key s = k). { unfold find_key in Fs. apply find_some in Fs as (_&Fs). lia. }
      apply by_key_incr in S. rewrite Em, map_app in S. apply incr_app in S as (_&Sb&C). cbn [map] in Sb. destruct Sb as (Fb&_). rewrite Forall_forall in Fb.
      assert (Q : below (k + 1) m = a ++ [s]).
      { rewrite Em. unfold below. rewrite filter_app. cbn [filter]. replace (s_key s <? k + 1) with true by lia. rewrite filter_all by (intros x X; pose proof (C (s_key x) (s_key s) ltac:(now apply in_map) ltac:(now left)); lia).
        rewrite filter_none; auto. intros x X. specialize (Fb (s_key x) ltac:(now apply in_map)). lia. }
      rewrite Q, zlen_app. change (zlen [s]) with 1. lia.
    - destruct (MISS P) as (Fn&->). f_equal. unfold below. apply filter_ext_in. intros x X. assert (s_key x <> k). { intros Q. unfold find_key in Fn. apply (find_none _ _ Fn) in X. lia. } lia. }
  rewrite LOC. pose proof (holds_size _ _ HS) as (TS&_). assert (TE : tsize sa = zlen (below (k + 1) m) + zlen (above k m)) by (rewrite <- zlen_app, <- E; exact TS). rewrite TE.
  destruct (append_range_ok h ra l sa (below (k + 1) m) (above k m) [] H HR) as (r&s'&Er&H1&H2); auto; [rewrite app_nil_r, <- E; exact HS|]. rewrite app_nil_r in H2. eauto.
Qed.
(** ** Copying a table *)
Lemma cross_mv w A B L A' B' L' n : 0 < w -> chunks w L -> chunks w L' -> 0 <= n -> n <= zlen L -> n <= zlen L' ->
  mv (A ++ concat L ++ B) (zlen A) (A' ++ concat L' ++ B') (zlen A') (w * n) = Some (A ++ concat (paste L 0 (cut L' 0 n)) ++ B).
Proof.
  intros W C C' N N1 N2. pose proof (mv_region w A B L (zlen A) _ A' B' L' (zlen A') 0 0 n W eq_refl eq_refl C C' eq_refl) as Q. rewrite Z.mul_0_r, !Z.add_0_r in Q. apply Q; lia.
Qed.
Lemma cross_keys d s C K Y C' K' Y' n : rep d C K Y -> rep s C' K' Y' -> 0 <= n -> n <= alloc d -> n <= alloc s ->
  exists m, mv (blk d) (keys_at d) (blk s) (keys_at s) (2 * n) = Some m /\ rep (with_blk d m) C (paste K 0 (cut K' 0 n)) Y.
Proof.
  intros R R' N N1 N2. destruct (rep_keys _ _ _ _ R) as (E&EA). destruct (rep_keys _ _ _ _ R') as (E'&EA'). destruct R as (_&(C8&K2&Y1)&(LC&LK&LY)&KA&YA). destruct R' as (_&(C8'&K2'&Y1')&(LC'&LK'&LY')&KA'&YA').
  rewrite E, E', <- EA, <- EA'. rewrite (cross_mv 2) by (auto; lia). eexists. split; [reflexivity|]. split; [reflexivity|]. cbn [blk alloc keys_at kinds_at with_blk]. split; [split; auto; split; auto; apply chunks_paste; auto; now apply chunks_cut|]. split; [|auto]. rewrite zlen_paste by (rewrite ?zlen_cut; lia). auto.
Qed.
Lemma cross_ptrs d s C K Y C' K' Y' n : rep d C K Y -> rep s C' K' Y' -> 0 <= n -> n <= alloc d -> n <= alloc s ->
  exists m, mv (blk d) 0 (blk s) 0 (8 * n) = Some m /\ rep (with_blk d m) (paste C 0 (cut C' 0 n)) K Y.
Proof.
  intros R R' N N1 N2. rewrite (rep_ptrs _ _ _ _ R), (rep_ptrs _ _ _ _ R'). destruct R as (_&(C8&K2&Y1)&(LC&LK&LY)&KA&YA). destruct R' as (_&(C8'&K2'&Y1')&(LC'&LK'&LY')&KA'&YA').
  pose proof (cross_mv 8 [] (concat K ++ concat Y) C [] (concat K' ++ concat Y') C' n) as Q. change (zlen (@nil (option Z))) with 0 in Q. rewrite Q by (auto; lia). eexists. split; [reflexivity|]. split; [reflexivity|]. cbn [blk alloc keys_at kinds_at with_blk]. split; [split; auto; apply chunks_paste; auto; now apply chunks_cut|]. split; [|auto]. rewrite zlen_paste by (rewrite ?zlen_cut; lia). auto.
Qed.
Lemma cross_kinds d s C K Y C' K' Y' n : rep d C K Y -> rep s C' K' Y' -> 0 <= n -> n <= alloc d -> n <= alloc s ->
  exists m, mv (blk d) (kinds_at d) (blk s) (kinds_at s) n = Some m /\ rep (with_blk d m) C K (paste Y 0 (cut Y' 0 n)).
Proof.
  intros R R' N N1 N2. destruct (rep_kinds _ _ _ _ R) as (E&EA). destruct (rep_kinds _ _ _ _ R') as (E'&EA'). destruct R as (_&(C8&K2&Y1)&(LC&LK&LY)&KA&YA). destruct R' as (_&(C8'&K2'&Y1')&(LC'&LK'&LY')&KA'&YA').
  rewrite E, E', <- EA, <- EA'. pose proof (cross_mv 1 (concat C ++ concat K) [] Y (concat C' ++ concat K') [] Y' n) as Q. rewrite Z.mul_1_l in Q. rewrite Q by (auto; lia). eexists. split; [reflexivity|]. split; [cbn [blk with_blk]; now rewrite app_nil_r, <- app_assoc|]. cbn [blk alloc keys_at kinds_at with_blk].
  split; [split; auto; split; auto; apply chunks_paste; auto; now apply chunks_cut|]. split; [|auto]. rewrite zlen_paste by (rewrite ?zlen_cut; lia). auto.
Qed.
Lemma head_paste {A B} (f : A -> B) (L : list B) (l : list A) J : zlen l <= zlen L -> exists R, paste L 0 (cut (map f l ++ J) 0 (zlen l)) = map f l ++ R /\ zlen R = zlen L - zlen l.
Proof.
  intros H. pose proof (cut_app [] (map f l) J 0 (zlen l) eq_refl ltac:(now rewrite zlen_map)) as Q. rewrite app_nil_l in Q. rewrite Q. unfold paste. cbn [Z.to_nat firstn app]. eexists. split; [reflexivity|]. unfold zlen in *. rewrite skipn_length, map_length. lia.
Qed.
Lemma junk_rows : forall CJ KJ YJ : list block, zlen CJ = zlen KJ -> zlen CJ = zlen YJ -> exists J : list row, map c8 J = CJ /\ map c2 J = KJ /\ map c1 J = YJ.
Proof.
  unfold zlen. induction CJ as [|c CJ IH]; intros [|k KJ] [|y YJ] A B; cbn [length] in *; try lia; [exists []; auto|]. destruct (IH KJ YJ) as (J&E1&E2&E3); try lia. exists ((c, k, y) :: J). cbn [map]. rewrite E1, E2, E3. auto.
Qed.
Lemma together ra (l : list slot) CJ KJ YJ : rep ra (map c8 (map tri l) ++ CJ) (map c2 (map tri l) ++ KJ) (map c1 (map tri l) ++ YJ) -> exists J, rows ra (map tri l ++ J).
Proof.
  intros R. pose proof R as (_&_&(LC&LK&LY)&_). rewrite !zlen_app, !zlen_map in *. destruct (junk_rows CJ KJ YJ) as (J&E1&E2&E3); try lia. exists J. unfold rows. rewrite !map_app, E1, E2, E3. exact R.
Qed.
Lemma share_loop_ok f : how_ok (Share f) -> forall w sa a J, Forall slot_ok w -> rows sa (map tri (a ++ w) ++ J) ->
  exists s', share_loop (length w) f sa (zlen a) = Some s' /\ rows s' (map tri (a ++ map (copied (Share f)) w) ++ J) /\ tsize s' = tsize sa /\ alloc s' = alloc sa.
Proof.
  intros H. induction w as [|s w IH]; intros sa a J F R; cbn [length share_loop map]; [exists sa; auto|]. apply ok_cons in F as (O&F). rewrite map_app, <- app_assoc in R. cbn [map app] in R. destruct (row_at sa _ s _ (zlen a) R O) as (_&->&->); [apply zlen_map|].
  destruct (f (s_ptr s, s_kind s)) as (p, t) eqn:Ef. destruct (share_row sa (map tri a) s (map tri w ++ J) p t (zlen a) R) as (x&y&->&->&R2&T2&A2); [apply zlen_map|].
  assert (Es : copied (Share f) s = Slot (s_key s) p t) by (cbn [copied]; now rewrite Ef).
  destruct (IH y (a ++ [copied (Share f) s]) J F) as (s'&E'&R'&T'&A'). { rewrite Es, <- app_assoc, map_app, <- app_assoc. exact R2. }
  rewrite zlen_app in E'. change (zlen [copied (Share f) s]) with 1 in E'. rewrite <- app_assoc in R'. exists s'. split; auto. split; auto. lia.
Qed.
Lemma clone_loop_ok f src J : forall w d C1 C2 K Y a, Forall slot_ok w -> rep d (C1 ++ C2) K Y -> zlen C1 = zlen a -> zlen w <= zlen C2 -> rows src (map tri (a ++ w) ++ J) ->
  exists d' C3, clone_loop (length w) f d src (zlen a) = Some d' /\ rep d' (C1 ++ map c8 (map tri (map (copied (Clone f)) w)) ++ C3) K Y /\ tsize d' = tsize d /\ alloc d' = alloc d.
Proof.
  induction w as [|s w IH]; intros d C1 C2 K Y a F R L W RS; cbn [length clone_loop map]; [exists d, C2; auto|]. apply ok_cons in F as (O&F). rewrite zlen_cons in W. pose proof (zlen_nonneg w). pose proof (zlen_nonneg a). destruct C2 as [|c C2]; [change (zlen (@nil block)) with 0 in W; lia|]. rewrite zlen_cons in W.
  pose proof RS as R0. rewrite map_app, <- app_assoc in R0. cbn [map app] in R0. destruct (row_at src _ s _ (zlen a) R0 O) as (_&->&->); [apply zlen_map|].
  assert (LD : zlen C1 + zlen C2 + 1 = alloc d). { destruct R as (_&_&(LC&_)&_). rewrite zlen_app, zlen_cons in LC. lia. } pose proof (zlen_nonneg C2).
  destruct (set_ptr_ok d _ _ _ (zlen a) (f (s_ptr s, s_kind s)) R) as (d1&->&R1&T1&A1); [lia|].
  pose proof (paste_app C1 [c] C2 [enc 8 (f (s_ptr s, s_kind s))] (zlen a) L eq_refl) as Q. cbn [app] in Q. rewrite Q in R1. clear Q.
  destruct (IH d1 (C1 ++ [enc 8 (f (s_ptr s, s_kind s))]) C2 K Y (a ++ [s]) F) as (d'&C3&E'&R'&T'&A').
  { rewrite <- app_assoc. exact R1. } { rewrite !zlen_app, L. reflexivity. } { lia. } { rewrite <- app_assoc. exact RS. }
  rewrite zlen_app in E'. change (zlen [s]) with 1 in E'. rewrite <- app_assoc in R'. exists d', C3. split; auto. split; [exact R'|]. lia.
Qed.
Lemma overwrite_ok h dest l source m : how_ok h -> h <> Move -> holds dest l -> holds source m ->
  exists d s, ra_overwrite h dest source = Some (d, s) /\ holds d (map (copied h) m) /\ holds s (map (left_behind h) m).
Proof.
  intros H NM HD HS. unfold ra_overwrite, ra_clear_containers. destruct (read_table_ok _ _ HD) as (->&_). pose proof (holds_size _ _ HD) as (TD&AD&PD). pose proof (holds_size _ _ HS) as (TS&AS&PS). destruct HD as ((JD&RD)&_&_&FD). pose proof HS as ((JS&RS)&_&_&FS).
  destruct (all_ok h m H FS) as (FC&FB). rewrite TS. destruct (Z.eqb_spec (zlen m) 0) as [Z0|NZ].
  { destruct m as [|? m]; [|rewrite zlen_cons in Z0; pose proof (zlen_nonneg m); lia]. eexists _, _. split; [reflexivity|]. cbn [map]. split; [|exact HS]. split; [exists (map tri l ++ JD); exact RD|]. split; [reflexivity|]. split; [cbn [alloc with_size]; lia|constructor]. }
  assert (Q : exists d J, (if alloc dest <? zlen m then realloc_array dest (zlen m) else Some dest) = Some d /\ rows d J /\ zlen m <= alloc d <= 65536).
  { destruct (Z.ltb_spec (alloc dest) (zlen m)) as [C|C]; [|exists dest, (map tri l ++ JD); split; [reflexivity|split; [exact RD|lia]]]. destruct (realloc_array_ok dest l JD (zlen m) RD TD) as (d&J'&->&R'&A'&_); [lia|]. exists d, (map tri l ++ J'). split; [reflexivity|split; [exact R'|lia]]. }
  destruct Q as (d&S&->&RD'&AD'). clear RD. cbn [blk keys_at kinds_at tsize with_size with_blk]. pose proof (rows_zlen _ _ RD') as LS. pose proof RS as RS0. unfold rows in RD', RS.
  destruct (cross_keys d source _ _ _ _ _ _ (zlen m) RD' RS) as (m1&->&R1); try lia. rewrite !(map_app c8), !(map_app c2), !(map_app c1) in RS. rewrite (map_app c2) in R1.
  destruct (head_paste c2 (map c2 S) (map tri m) (map c2 JS)) as (KJ&EK&LK); [rewrite !zlen_map; lia|]. rewrite zlen_map in EK. rewrite EK in R1. clear EK.
  replace (Z.to_nat (zlen m)) with (length m) by (unfold zlen; lia).
  destruct h as [|f|f]; [congruence| |].
  - destruct (share_loop_ok f H m source [] JS FS) as (s'&E'&R'&T'&A'). { exact RS0. }
    change (zlen (@nil slot)) with 0 in E'. rewrite app_nil_l in R'. rewrite E'. set (m' := map (copied (Share f)) m) in *. assert (Lm : zlen m' = zlen m) by (unfold m'; apply zlen_map). pose proof R' as R''. unfold rows in R''. rewrite !(map_app c8), !(map_app c2), !(map_app c1) in R''.
    destruct (cross_ptrs _ s' _ _ _ _ _ _ (zlen m) R1 R'') as (m2&E2&R2); cbn [alloc with_blk]; try lia. cbn [blk with_blk] in E2. cbn [blk keys_at kinds_at tsize with_size with_blk] in *. rewrite E2.
    destruct (head_paste c8 (map c8 S) (map tri m') (map c8 JS)) as (CJ&EC&LC); [rewrite !zlen_map; lia|]. rewrite zlen_map, Lm in EC. rewrite EC in R2. clear EC.
    destruct (cross_kinds _ s' _ _ _ _ _ _ (zlen m) R2 R'') as (m3&E3&R3); cbn [alloc with_blk]; try lia. cbn [blk kinds_at with_blk] in E3. rewrite E3.
    destruct (head_paste c1 (map c1 S) (map tri m') (map c1 JS)) as (YJ&EY&LY); [rewrite !zlen_map; lia|]. rewrite zlen_map, Lm in EY. rewrite EY in R3. clear EY.
    assert (EKK : map c2 (map tri m) = map c2 (map tri m')). { unfold m'. rewrite !map_map. apply map_ext. intros s. unfold tri, c2. cbn [fst snd copied]. now destruct (f (s_ptr s, s_kind s)). }
    rewrite EKK in R3. destruct (together _ _ _ _ _ R3) as (J&RJ). eexists _, s'. split; [reflexivity|]. split.
    + split; [exists J; exact RJ|]. split; [cbn [tsize with_blk with_size]; lia|]. split; [cbn [alloc with_blk with_size]; lia|exact FC].
    + change (map (left_behind (Share f)) m) with m'. split; [eauto|]. split; [lia|]. split; [lia|exact FB].
  - destruct (cross_kinds _ source _ _ _ _ _ _ (zlen m) R1 RS) as (m3&E3&R3); cbn [alloc with_blk]; try lia. cbn [blk kinds_at with_blk] in E3. rewrite E3.
    destruct (head_paste c1 (map c1 S) (map tri m) (map c1 JS)) as (YJ&EY&LY); [rewrite !zlen_map; lia|]. rewrite zlen_map in EY. rewrite EY in R3. clear EY.
    set (d3 := Tab m3 (keys_at d) (kinds_at d) (alloc d) (zlen m)). assert (R4 : rep d3 ([] ++ map c8 S) (map c2 (map tri m) ++ KJ) (map c1 (map tri m) ++ YJ)) by exact R3.
    destruct (clone_loop_ok f source JS m d3 [] (map c8 S) _ _ [] FS R4 eq_refl) as (d'&C3&E'&R'&T'&A'). { rewrite zlen_map. lia. } { exact RS0. }
    change (zlen (@nil slot)) with 0 in E'. unfold d3 in E'. unfold with_blk, with_size. cbn [blk keys_at kinds_at alloc tsize]. replace (Z.to_nat (zlen m)) with (length m) by (unfold zlen; lia). rewrite E'. rewrite app_nil_l in R'. set (m' := map (copied (Clone f)) m) in *.
    assert (EKK : map c2 (map tri m) = map c2 (map tri m')) by (unfold m'; rewrite !map_map; apply map_ext; reflexivity). assert (EYY : map c1 (map tri m) = map c1 (map tri m')) by (unfold m'; rewrite !map_map; apply map_ext; reflexivity).
    rewrite EKK, EYY in R'. destruct (together _ _ _ _ _ R') as (J&RJ). exists d', source. split; [reflexivity|]. split.
    + split; [exists J; exact RJ|]. unfold d3 in T', A'. cbn [tsize alloc] in T', A'. split; [rewrite T'; unfold m'; now rewrite zlen_map|]. split; [lia|exact FC].
    + replace (map (left_behind (Clone f)) m) with m by (symmetry; apply map_id). exact HS.
Qed.
(** ** Programs *)
Theorem pair_step_ok c ra sa l m : holds ra l -> holds sa m -> pok c (l, m) -> exists r s, pair_step c (ra, sa) = Some (r, s) /\ holds r (fst (pstep c (l, m))) /\ holds s (snd (pstep c (l, m))).
Proof.
  intros HR HS O. destruct c; cbn [pair_step pstep pok fst snd] in *; rewrite ?size_of_zlen in *; unfold max_slots in *.
  - destruct (tab_step_ok c ra l HR O) as (r&->&H). exists r, sa. auto.
  - destruct (tab_step_ok c sa m HS O) as (s&->&H). exists ra, s. auto.
  - destruct O as (H&B&E&L). destruct (cut3 m b e B E) as (x&y&z&Em&->&->&->&Lx&Ly). subst m. rewrite <- Lx. replace e with (zlen x + zlen y) by lia. apply append_range_ok; auto. change (size_of l) with (zlen l) in L. lia.
  - destruct O as (H&_&S&L). now apply until_ok.
  - destruct O as (H&_&S&_&L). now apply after_ok.
  - destruct O as (H&N). now apply overwrite_ok with l.
Qed.
Theorem pair_run_ok : forall p ra sa l m, holds ra l -> holds sa m -> plegal p (l, m) -> exists r s, pair_run p (ra, sa) = Some (r, s) /\ holds r (fst (prun p (l, m))) /\ holds s (snd (prun p (l, m))).
Proof.
  induction p as [|c p IH]; intros ra sa l m HR HS L; cbn [pair_run prun plegal] in *; [exists ra, sa; auto|]. destruct L as (O&L). destruct (pair_step_ok c ra sa l m HR HS O) as (r&s&->&H1&H2). destruct (pstep c (l, m)) as (l', m'). now apply IH.
Qed.
Theorem two_tables cap cap' p : 0 <= cap -> 0 <= cap' -> plegal p ([], []) -> exists ra sa, pair_run p (ra_init_with_capacity cap, ra_init_with_capacity cap') = Some (ra, sa) /\
  read_table ra = Some (fst (prun p ([], []))) /\ read_table sa = Some (snd (prun p ([], []))) /\ zlen (blk ra) = 11 * alloc ra /\ zlen (blk sa) = 11 * alloc sa /\ alloc ra <= 65536 /\ alloc sa <= 65536.
Proof.
  intros C C' L. destruct (init_with_capacity_holds cap C) as (H&_). destruct (init_with_capacity_holds cap' C') as (H'&_). destruct (pair_run_ok p _ _ _ _ H H' L) as (r&s&E&H1&H2). exists r, s. split; auto. destruct (read_table_ok _ _ H1) as (->&B1&A1). destruct (read_table_ok _ _ H2) as (->&B2&A2). repeat split; auto; lia.
Qed.
