(** ArtZ: the memory image of an ART: art_size_in_bytes, art_serialize and art_frozen_view
    (art.c:2311-2415).

    An image holds the node arrays byte by byte.  The bytes of a struct that were never
    written, or whose content is out of use (padding, a prefix beyond prefix_size, keys and
    children beyond count, a freed node beyond next_free), can be anything: [g t i o] is the
    byte at offset [o] of the [i]-th node of type [t], and the theorems hold for every [g].
    Sizes are those of an LP64 little-endian machine. *)
From Verif Require Import Base BitUtil Bytes Art ArtS ArtN ArtW ArtT ArtU ArtI ArtR ArtL ArtH.
Local Opaque zr n48_pairs n256_pairs.

(** * Model *)
Definition u64 (x : Z) : Z := x mod 2^64.
(** roaring64.c:2220-2222 align_size; art.c:24-34 and roaring64.c:20-22 for an address relative
    to a multiple of 64 *)
Definition align_size (size alignment : Z) : Z := u64 (Z.ldiff (size + alignment - 1) (alignment - 1)).

(** art.c:44-117: the bytes of a node *)
Definition junk (g : Z -> Z) (lo hi : Z) : list Z := map g (zr lo hi).
Definition base_bytes (g : Z -> Z) (pre : list Z) : list Z := zlen pre :: pre ++ junk g (1 + zlen pre) 6.
Definition node_bytes (g : Z -> Z) (n : node) : list Z :=
  match n with
  | NLeaf key val => key ++ junk g 6 8 ++ le 8 val
  | N4 pre kc => base_bytes g pre ++ zlen kc :: map fst kc ++ junk g (7 + zlen kc) 16 ++ les 8 (map snd kc) ++ junk g (16 + 8 * zlen kc) 48
  | N16 pre kc => base_bytes g pre ++ zlen kc :: map fst kc ++ junk g (7 + zlen kc) 24 ++ les 8 (map snd kc) ++ junk g (24 + 8 * zlen kc) 152
  | N48 pre count avail keys children => base_bytes g pre ++ count :: junk g 7 8 ++ le 8 avail ++ keys ++ les 8 children
  | N256 pre count children => base_bytes g pre ++ le 2 count ++ les 8 children
  end.
Definition slot_bytes (g : Z -> Z) (t : Z) (s : slot) : list Z :=
  match s with
  | Used n => node_bytes g n
  | Freed next val => le 8 next ++ (if t =? LEAF_TYPE then le 8 val else junk g 8 (node_size t))
  end.
Fixpoint array_bytes (g : Z -> Z -> Z) (t i : Z) (l : list slot) : list Z :=
  match l with [] => [] | s :: l' => slot_bytes (g i) t s ++ array_bytes g t (i + 1) l' end.
Definition types : list Z := [1; 2; 3; 4; 5].
(** art->capacities, of six elements; the first stays 0 *)
Definition capacities (a : art) : list Z := 0 :: map (capacity a) types.

(** art.c:2320-2336 art_size_in_bytes *)
Definition art_size_in_bytes (a : art) : Z :=
  if negb (art_is_shrunken a) then 0 else
  let size := 8 + 6 * 8 in
  let size := size + (align_size size 8 - size) in
  u64 (fold_left (fun s t => s + capacity a t * node_size t) types size).
(** art.c:2361-2368: the node arrays *)
Fixpoint write_arrays (g : Z -> Z -> Z -> Z) (a : art) (ts : list Z) (st : list Z * Z) : option (list Z * Z) :=
  match ts with
  | [] => Some st
  | t :: ts' =>
    do st1 <- (if 0 <? capacity a t then wr (array_bytes (g t) t 0 (a_nodes a t)) (capacity a t * node_size t) st else Some st);
    write_arrays g a ts' st1
  end.
(** art.c:2338-2371 art_serialize: the buffer and the position after the last byte written.  A
    return value of 0 is a position that did not move. *)
Definition art_serialize (g : Z -> Z -> Z -> Z) (a : art) (st : list Z * Z) : option (list Z * Z) :=
  if negb (art_is_shrunken a) then Some st else
  let initial_buf := snd st in
  do st <- wr (le 8 (a_root a)) 8 st;
  do st <- wr (les 8 (capacities a)) (6 * 8) st;
  let align_bytes := align_size (snd st - initial_buf) 8 - (snd st - initial_buf) in
  do st <- wr (repeat 0 (Z.to_nat align_bytes)) align_bytes st;
  write_arrays g a types st.

(** reading a node back.  A slot whose bytes are not those of a node (a prefix or a count larger
    than the array, an index of a child above the array) cannot be used: Freed. *)
Definition bytes_at (l : list Z) (o n : Z) : list Z := firstn (Z.to_nat n) (skipn (Z.to_nat o) l).
Definition val_at (l : list Z) (o n : Z) : Z := le_val (bytes_at l o n).
Definition children_at (l : list Z) (o n : Z) : list Z := le_vals 8 (Z.to_nat n) (bytes_at l o (8 * n)).
Definition decode_node (t : Z) (l : list Z) : option node :=
  if t =? LEAF_TYPE then Some (NLeaf (bytes_at l 0 6) (val_at l 8 8))
  else
    let size := val_at l 0 1 in
    let pre := bytes_at l 1 size in
    let count := val_at l 6 1 in
    do _ <- guard (size <=? 5);
    if t =? NODE4_TYPE then do _ <- guard (count <=? 4); Some (N4 pre (combine (bytes_at l 7 count) (children_at l 16 count)))
    else if t =? NODE16_TYPE then do _ <- guard (count <=? 16); Some (N16 pre (combine (bytes_at l 7 count) (children_at l 24 count)))
    else if t =? NODE48_TYPE then
      do _ <- guard (forallb (fun k => k <=? NODE48_EMPTY_VAL) (bytes_at l 16 256));
      Some (N48 pre count (val_at l 8 8) (bytes_at l 16 256) (children_at l 272 48))
    else if t =? NODE256_TYPE then Some (N256 pre (val_at l 6 2) (children_at l 8 256))
    else None.
Definition slot_of_bytes (t : Z) (l : list Z) : slot := match decode_node t l with Some n => Used n | None => Freed 0 0 end.
Fixpoint slots_of (n : nat) (t : Z) (l : list Z) : list slot :=
  match n with
  | O => []
  | S n' => slot_of_bytes t (firstn (Z.to_nat (node_size t)) l) :: slots_of n' t (skipn (Z.to_nat (node_size t)) l)
  end.
(** art.c:2406-2416: the node arrays of a view; the bytes left and the position are returned with
    the arrays found, and whether all were.  The multiplication wraps: then only as many nodes as
    the product holds are taken to exist. *)
Fixpoint view_arrays (buf : list Z) (caps : Z -> Z) (ts : list Z) (pos maxbytes : Z) (nodes : Z -> list slot) : option ((Z -> list slot) * Z * bool) :=
  match ts with
  | [] => Some (nodes, pos, true)
  | t :: ts' =>
    if 0 <? caps t then
      let size := u64 (caps t * node_size t) in
      if maxbytes <? size then Some (nodes, pos, false)
      else do l <- rd buf pos size;
           view_arrays buf caps ts' (pos + size) (maxbytes - size) (Art.fset nodes t (slots_of (Z.to_nat (size / node_size t)) t l))
    else view_arrays buf caps ts' pos maxbytes nodes
  end.
(** A view can only be read, and reading starts at the root.  Nodes the root does not lead to
    are represented as freed ones: an image may hold freed nodes, whose bytes say nothing.
    (A tree has at most six levels of inner nodes above its leaves.) *)
Fixpoint reach (fuel : nat) (a : art) (r : Z) : list Z :=
  r :: match fuel with
       | O => []
       | S f => match art_deref a r with Some n => flat_map (fun p => reach f a (snd p)) (kids n) | None => [] end
       end.
Fixpoint keep_slots (live : list Z) (t i : Z) (l : list slot) : list slot :=
  match l with [] => [] | s :: l' => (if existsb (Z.eqb (art_to_ref i t)) live then s else Freed 0 0) :: keep_slots live t (i + 1) l' end.
Definition keep_reachable (a : art) : art :=
  ART (a_root a) (a_ff a) (fun t => keep_slots (reach 6 a (a_root a)) t 0 (a_nodes a t)).
(** art.c:2373-2420 art_frozen_view of the bytes from [pos] on: the tree and the return value
    (0: failure, with the tree as far as it was set up) *)
Definition art_frozen_view (buf : list Z) (pos maxbytes : Z) : option (art * Z) :=
  if maxbytes <? 8 then Some (art_init_cleared, 0) else
  do root <- rdv 8 buf pos;
  let p := pos + 8 in
  let maxbytes := maxbytes - 8 in
  if maxbytes <? 6 * 8 then Some (set_root art_init_cleared root, 0) else
  do l <- rd buf p (6 * 8);
  let caps t := znth (le_vals 8 6 l) t in
  let p := p + 6 * 8 in
  let maxbytes := maxbytes - 6 * 8 in
  let q := align_size p 8 in
  if maxbytes <? q - p then Some (ART root caps (fun _ => []), 0) else
  let maxbytes := maxbytes - (q - p) in
  do (nodes, e, ok) <- view_arrays buf caps types q maxbytes (fun _ => []);
  let a := ART root caps nodes in
  Some (if ok : bool then (keep_reachable a, e - pos) else (a, 0)).

(** * Proofs *)
(** ** A node survives the round trip *)
Lemma align_spec s k : 0 <= k -> 0 <= s -> s + 2 ^ k - 1 < 2^64 -> align_size s (2 ^ k) = (s + 2 ^ k - 1) / 2 ^ k * 2 ^ k.
Proof.
  intros K S B. unfold align_size, u64. replace (2 ^ k - 1) with (Z.ones k) by (rewrite Z.ones_equiv; lia). assert (0 < 2 ^ k) by (apply Z.pow_pos_nonneg; lia).
  replace (s + 2 ^ k - 1) with (s + 2 ^ k - 1) by lia. rewrite Z.ldiff_ones_r by lia. rewrite Z.shiftl_mul_pow2, Z.shiftr_div_pow2 by lia.
  apply Z.mod_small. pose proof (Z.mul_div_le (s + 2 ^ k - 1) (2 ^ k) ltac:(lia)). assert (0 <= (s + 2 ^ k - 1) / 2 ^ k) by (apply Z.div_pos; lia). nia.
Qed.
Lemma align_ge s k : 0 <= k -> 0 <= s -> s + 2 ^ k - 1 < 2^64 -> s <= align_size s (2 ^ k) < s + 2 ^ k /\ align_size s (2 ^ k) mod 2 ^ k = 0.
Proof.
  intros K S B. rewrite align_spec by auto. assert (0 < 2 ^ k) by (apply Z.pow_pos_nonneg; lia). pose proof (Z.div_mod (s + 2 ^ k - 1) (2 ^ k) ltac:(lia)). pose proof (Z.mod_pos_bound (s + 2 ^ k - 1) (2 ^ k) ltac:(lia)).
  split; [lia|]. apply Z.mod_mul. lia.
Qed.
Lemma align_same s k : 0 <= k -> 0 <= s < 2^64 -> s mod 2 ^ k = 0 -> s + 2 ^ k - 1 < 2 ^ 64 -> align_size s (2 ^ k) = s.
Proof.
  intros K S M B. rewrite align_spec by lia. assert (0 < 2 ^ k) by (apply Z.pow_pos_nonneg; lia). pose proof (Z.div_mod s (2 ^ k) ltac:(lia)) as D. rewrite M in D.
  replace (s + 2 ^ k - 1) with (s / 2 ^ k * 2 ^ k + (2 ^ k - 1)) by lia. rewrite Z.div_add_l by lia. rewrite (Z.div_small (2 ^ k - 1)) by lia. lia.
Qed.

Lemma at_eq l A B C o n : l = A ++ B ++ C -> o = zlen A -> n = zlen B -> bytes_at l o n = B.
Proof.
  intros -> -> ->. unfold bytes_at, zlen. rewrite !Nat2Z.id, skipn_app, skipn_all, Nat.sub_diag. cbn [app skipn]. rewrite firstn_app, firstn_all, Nat.sub_diag. apply app_nil_r.
Qed.
Lemma junk_zlen g lo hi : lo <= hi -> zlen (junk g lo hi) = hi - lo.
Proof. intros H. unfold junk. rewrite zlen_map. now apply zr_zlen. Qed.
Lemma base_zlen g pre : zlen pre <= 5 -> zlen (base_bytes g pre) = 6.
Proof. intros H. unfold base_bytes. rewrite zlen_cons, zlen_app, junk_zlen by lia. lia. Qed.
Lemma le_vals_les_mod w l : le_vals w (length l) (les w l) = map (fun v => v mod 256 ^ Z.of_nat w) l.
Proof.
  induction l as [|v l IH]; auto. cbn [length le_vals map]. rewrite les_cons. rewrite firstn_app_l by now rewrite le_length. rewrite skipn_app_l by now rewrite le_length. now rewrite le_val_le, IH.
Qed.
Lemma le_vals_les_id l : Forall (fun v => 0 <= v < 2^64) l -> le_vals 8 (length l) (les 8 l) = l.
Proof.
  intros F. rewrite le_vals_les_mod. rewrite <- (map_id l) at 2. apply map_ext_in. intros v V. rewrite Forall_forall in F. apply Z.mod_small. apply F in V. exact V.
Qed.
Lemma combine_split_map {A B} (l : list (A * B)) : combine (map fst l) (map snd l) = l.
Proof. induction l as [|[a b] l IH]; cbn; congruence. Qed.

(** a node that fits its representation *)
Definition enc_ok (n : node) : Prop :=
  match n with
  | NLeaf k v => key6 k /\ 0 <= v < 2^64
  | _ => wf n /\ bytes (node_prefix n) /\ Forall (fun p => 0 <= snd p < 2^64) (kids n)
  end.
(** the node read back: the same but for children no key leads to *)
Definition nsim (n n' : node) : Prop :=
  match n with
  | NLeaf _ _ => n' = n
  | _ => ntype n' = ntype n /\ wf n' /\ node_prefix n' = node_prefix n /\ kids n' = kids n
  end.
Lemma kids_n48_le p ct av ks ch : wf (N48 p ct av ks ch) -> ct <= 48.
Proof.
  intros (_ & _ & _ & _ & -> & Rg & I & _). cbn [kids].
  pose proof (incr_NoDup _ (n48_incr ks ch)) as N.
  assert (NM : NoDup (map (fun i => znth ks i) (map fst (n48_pairs ks ch)))).
  { assert (Q : forall x, In x (map fst (n48_pairs ks ch)) -> 0 <= x < 256 /\ znth ks x <> 48) by (intros x X; apply In_map_fst in X as (c & X); apply n48_In in X; tauto).
    revert N Q. generalize (map fst (n48_pairs ks ch)). induction l as [|x l IH]; intros N Q; cbn [map]; [constructor|]. inversion N; subst. constructor; [|apply IH; auto; intros; apply Q; now right].
    intros X. apply in_map_iff in X as (y & E & Y). destruct (Q x (or_introl eq_refl)), (Q y (or_intror Y)). assert (y = x) by (apply I; auto; congruence). now subst. }
  assert (IN : incl (map (fun i => znth ks i) (map fst (n48_pairs ks ch))) (zr 0 48)).
  { intros x X. apply in_map_iff in X as (y & <- & Y). apply In_map_fst in Y as (c & Y). apply n48_In in Y as (B & NE & _). apply zr_In. specialize (Rg y B). lia. }
  pose proof (NoDup_incl_length NM IN) as L. rewrite !map_length in L. pose proof (zr_zlen 0 48 ltac:(lia)) as Z48. unfold zlen in *. lia.
Qed.
Lemma base_fields g pre rest : zlen pre <= 5 -> val_at (base_bytes g pre ++ rest) 0 1 = zlen pre /\ bytes_at (base_bytes g pre ++ rest) 1 (zlen pre) = pre.
Proof.
  intros H. unfold base_bytes. split.
  - unfold val_at. rewrite (at_eq _ [] [zlen pre] ((pre ++ junk g (1 + zlen pre) 6) ++ rest)) by reflexivity. cbn. lia.
  - apply (at_eq _ [zlen pre] pre (junk g (1 + zlen pre) 6 ++ rest)); auto. cbn [app]. now rewrite <- app_assoc.
Qed.
Lemma count_field A c rest : zlen A = 6 -> val_at (A ++ c :: rest) 6 1 = c.
Proof. intros H. unfold val_at. rewrite (at_eq _ A [c] rest) by (auto; symmetry; auto). cbn. lia. Qed.
Lemma kc_fields A kc j1 j2 m : zlen A = 6 -> zlen j1 = m - 7 - zlen kc -> Forall (fun p : Z * Z => 0 <= snd p < 2^64) kc ->
  let l := A ++ zlen kc :: map fst kc ++ j1 ++ les 8 (map snd kc) ++ j2 in
  combine (bytes_at l 7 (zlen kc)) (children_at l m (zlen kc)) = kc.
Proof.
  intros HA HJ F l.
  assert (E1 : bytes_at l 7 (zlen kc) = map fst kc).
  { apply (at_eq _ (A ++ [zlen kc]) _ (j1 ++ les 8 (map snd kc) ++ j2)); [unfold l; now rewrite <- app_assoc| |now rewrite zlen_map]. rewrite zlen_app, HA. reflexivity. }
  assert (E2 : bytes_at l m (8 * zlen kc) = les 8 (map snd kc)).
  { apply (at_eq _ (A ++ zlen kc :: map fst kc ++ j1) _ j2).
    - unfold l. rewrite <- !app_assoc. cbn [app]. now rewrite <- !app_assoc.
    - rewrite zlen_app, zlen_cons, zlen_app, zlen_map. lia.
    - rewrite les_zlen, zlen_map. lia. }
  rewrite E1. unfold children_at. rewrite E2. replace (Z.to_nat (zlen kc)) with (length (map snd kc)) by (rewrite map_length; unfold zlen; lia).
  rewrite le_vals_les_id, combine_split_map; auto. apply Forall_map. exact F.
Qed.
Lemma node_bytes_zlen g n : enc_ok n -> zlen (node_bytes g n) = node_size (ntype n).
Proof.
  destruct n as [k v|p kc|p kc|p ct av ks ch|p ct ch]; cbn [enc_ok node_bytes ntype].
  - intros ((K & _) & _). rewrite !zlen_app, le_zlen, junk_zlen by lia. rewrite K. reflexivity.
  - intros ((P & _ & L) & _). cbn [node_prefix] in P. pose proof (zlen_nonneg kc). rewrite zlen_app, zlen_cons, !zlen_app, base_zlen, zlen_map, les_zlen, zlen_map, !junk_zlen by lia. change (node_size 2) with 48. lia.
  - intros ((P & _ & L) & _). cbn [node_prefix] in P. pose proof (zlen_nonneg kc). rewrite zlen_app, zlen_cons, !zlen_app, base_zlen, zlen_map, les_zlen, zlen_map, !junk_zlen by lia. change (node_size 3) with 152. lia.
  - intros ((P & _ & LK & LC & _) & _). cbn [node_prefix] in P. rewrite zlen_app, zlen_cons, !zlen_app, base_zlen, le_zlen, les_zlen, !junk_zlen by lia. rewrite LK, LC. reflexivity.
  - intros ((P & _ & LC & _) & _). cbn [node_prefix] in P. rewrite zlen_app, !zlen_app, base_zlen, le_zlen, les_zlen by lia. rewrite LC. reflexivity.
Qed.
Lemma decode_encode g n : enc_ok n -> exists n', decode_node (ntype n) (node_bytes g n) = Some n' /\ nsim n n'.
Proof.
  destruct n as [k v|p kc|p kc|p ct av ks ch|p ct ch]; cbn [enc_ok node_bytes ntype].
  - intros ((K & _) & V). unfold decode_node. change (1 =? LEAF_TYPE) with true. cbn iota. eexists. split; [|reflexivity]. do 2 f_equal.
    + now apply (at_eq _ [] k (junk g 6 8 ++ le 8 v)).
    + unfold val_at. rewrite (at_eq _ (k ++ junk g 6 8) (le 8 v) []); [now apply le_val_in|now rewrite app_nil_r, <- app_assoc| |now rewrite le_zlen].
      rewrite zlen_app, junk_zlen by lia. lia.
  - intros (W & B & F). pose proof W as (P & _ & L). cbn [node_prefix kids] in *. destruct (base_fields g p (zlen kc :: map fst kc ++ junk g (7 + zlen kc) 16 ++ les 8 (map snd kc) ++ junk g (16 + 8 * zlen kc) 48) P) as (E1 & E2).
    unfold decode_node. change (2 =? LEAF_TYPE) with false. change (2 =? NODE4_TYPE) with true. cbn iota zeta. rewrite E1, E2. replace (zlen p <=? 5) with true by lia. cbn [guard obind].
    rewrite count_field by now apply base_zlen. replace (zlen kc <=? 4) with true by lia. cbn [guard obind]. rewrite kc_fields; [|now apply base_zlen|pose proof (zlen_nonneg kc); rewrite junk_zlen by lia; lia|exact F].
    eexists. split; [reflexivity|]. repeat split; auto; apply W.
  - intros (W & B & F). pose proof W as (P & _ & L). cbn [node_prefix kids] in *. destruct (base_fields g p (zlen kc :: map fst kc ++ junk g (7 + zlen kc) 24 ++ les 8 (map snd kc) ++ junk g (24 + 8 * zlen kc) 152) P) as (E1 & E2).
    unfold decode_node. change (3 =? LEAF_TYPE) with false. change (3 =? NODE4_TYPE) with false. change (3 =? NODE16_TYPE) with true. cbn iota zeta. rewrite E1, E2. replace (zlen p <=? 5) with true by lia. cbn [guard obind].
    rewrite count_field by now apply base_zlen. replace (zlen kc <=? 16) with true by lia. cbn [guard obind]. rewrite kc_fields; [|now apply base_zlen|pose proof (zlen_nonneg kc); rewrite junk_zlen by lia; lia|exact F].
    eexists. split; [reflexivity|]. repeat split; auto; apply W.
  - intros (W & B & F). pose proof (kids_n48_le _ _ _ _ _ W) as CT. pose proof W as (P & K & LK & LC & C & Rg & I & A & M). cbn [node_prefix kids] in *.
    destruct (base_fields g p (ct :: junk g 7 8 ++ le 8 av ++ ks ++ les 8 ch) P) as (E1 & E2).
    unfold decode_node. change (4 =? LEAF_TYPE) with false. change (4 =? NODE4_TYPE) with false. change (4 =? NODE16_TYPE) with false. change (4 =? NODE48_TYPE) with true. cbn iota zeta. rewrite E1, E2. replace (zlen p <=? 5) with true by lia. cbn [guard obind].
    rewrite count_field by now apply base_zlen.
    set (l := base_bytes g p ++ ct :: junk g 7 8 ++ le 8 av ++ ks ++ les 8 ch).
    assert (J : zlen (junk g 7 8) = 1) by (now rewrite junk_zlen).
    assert (EA : bytes_at l 8 8 = le 8 av).
    { apply (at_eq _ (base_bytes g p ++ ct :: junk g 7 8) _ (ks ++ les 8 ch)); [unfold l; now rewrite <- app_assoc| |now rewrite le_zlen]. rewrite zlen_app, zlen_cons, base_zlen, J by lia. lia. }
    assert (EK : bytes_at l 16 256 = ks).
    { apply (at_eq _ (base_bytes g p ++ ct :: junk g 7 8 ++ le 8 av) _ (les 8 ch)); [unfold l; rewrite <- app_assoc; cbn [app]; now rewrite <- !app_assoc| |auto]. rewrite zlen_app, zlen_cons, zlen_app, base_zlen, J, le_zlen by lia. lia. }
    assert (EC : bytes_at l 272 (8 * 48) = les 8 ch).
    { apply (at_eq _ (base_bytes g p ++ ct :: junk g 7 8 ++ le 8 av ++ ks) _ []); [unfold l; rewrite <- app_assoc; cbn [app]; rewrite <- !app_assoc; cbn [app]; now rewrite app_nil_r| |rewrite les_zlen, LC; lia].
      rewrite zlen_app, zlen_cons, !zlen_app, base_zlen, J, le_zlen, LK by lia. lia. }
    unfold val_at, children_at. rewrite EA, EK, EC. replace (Z.to_nat 48) with (length ch) by (unfold zlen in LC; lia). rewrite le_vals_les_mod. rewrite le_val_in by lia.
    assert (FB : forallb (fun k => k <=? NODE48_EMPTY_VAL) ks = true).
    { apply forallb_forall. intros x X. apply In_znth in X as (i & HI & <-). unfold NODE48_EMPTY_VAL. rewrite LK in HI. specialize (Rg i HI). lia. }
    rewrite FB. cbn [guard obind]. eexists. split; [reflexivity|].
    set (ch' := map (fun v => v mod 256 ^ Z.of_nat 8) ch). assert (LC' : zlen ch' = 48) by (unfold ch'; now rewrite zlen_map).
    assert (KE : n48_pairs ks ch' = n48_pairs ks ch).
    { apply alist_ext; [apply n48_incr|apply n48_incr|]. assert (V : forall x, 0 <= x < 256 -> znth ks x <> 48 -> znth ch' (znth ks x) = znth ch (znth ks x)).
      { intros x X N. assert (Q : 0 <= znth ks x < 48) by (specialize (Rg x X); lia). unfold ch', znth. rewrite (nth_indep _ 0 (0 mod 256 ^ Z.of_nat 8)) by (rewrite map_length; unfold zlen in LC; fold (znth ks x); lia). rewrite (map_nth (fun v => v mod 256 ^ Z.of_nat 8)). apply Z.mod_small.
        rewrite Forall_forall in F. apply (F (x, znth ch (znth ks x))). apply n48_In. auto. }
      intros x y. rewrite !n48_In. split; intros (X & N & ->); repeat split; try lia; auto. }
    split; [reflexivity|]. split; [|split; [reflexivity|exact KE]]. split; [exact P|]. cbn [kids]. rewrite KE. repeat (split; [assumption|]). auto.
  - intros (W & B & F). pose proof W as (P & K & LC & C). cbn [node_prefix kids] in *.
    destruct (base_fields g p (le 2 ct ++ les 8 ch) P) as (E1 & E2).
    unfold decode_node. change (5 =? LEAF_TYPE) with false. change (5 =? NODE4_TYPE) with false. change (5 =? NODE16_TYPE) with false. change (5 =? NODE48_TYPE) with false. change (5 =? NODE256_TYPE) with true. cbn iota zeta. rewrite E1, E2. replace (zlen p <=? 5) with true by lia. cbn [guard obind].
    set (l := base_bytes g p ++ le 2 ct ++ les 8 ch).
    assert (CT : 0 <= ct < 65536).
    { assert (zlen (map fst (n256_pairs ch)) <= 256 - 0); [|rewrite zlen_map in *; pose proof (zlen_nonneg (n256_pairs ch)); lia]. apply incr_inb_len; [apply n256_incr| |lia].
      apply Forall_forall. intros x X. apply In_map_fst in X as (c & X). apply n256_In in X. tauto. }
    assert (EA : val_at l 6 2 = ct).
    { unfold val_at. rewrite (at_eq _ (base_bytes g p) (le 2 ct) (les 8 ch)); [now apply le_val_in|reflexivity|now rewrite base_zlen|now rewrite le_zlen]. }
    assert (EC : children_at l 8 256 = ch).
    { unfold children_at. rewrite (at_eq _ (base_bytes g p ++ le 2 ct) (les 8 ch) []); [|unfold l; now rewrite app_nil_r, <- app_assoc| |rewrite les_zlen, LC; reflexivity].
      - replace (Z.to_nat 256) with (length ch) by (unfold zlen in LC; lia). apply le_vals_les_id. apply Forall_forall. intros x X. apply In_znth in X as (i & HI & <-).
        destruct (Z.eq_dec (znth ch i) 0) as [->|N]; [lia|]. rewrite Forall_forall in F. apply (F (i, znth ch i)). apply n256_In. rewrite LC in HI. auto.
      - rewrite zlen_app, base_zlen, le_zlen by lia. reflexivity. }
    rewrite EA, EC. eexists. split; [reflexivity|]. repeat split; auto; apply W.
Qed.

(** ** The node arrays survive the round trip *)
Definition slot_ok (t : Z) (s : slot) : Prop := match s with Used n => ntype n = t /\ enc_ok n | Freed _ _ => True end.
Lemma slot_zlen g t s : 1 <= t <= 5 -> slot_ok t s -> zlen (slot_bytes g t s) = node_size t.
Proof.
  intros B. destruct s as [n|nx v]; cbn [slot_ok slot_bytes]; [intros (<- & E); now apply node_bytes_zlen|intros _].
  rewrite zlen_app, le_zlen. assert (C : t = 1 \/ t = 2 \/ t = 3 \/ t = 4 \/ t = 5) by lia. destruct C as [->|[->|[->|[->| ->]]]]; cbn -[zlen junk]; rewrite ?le_zlen, ?junk_zlen by lia; reflexivity.
Qed.
Lemma node_size_pos t : 1 <= t <= 5 -> 16 <= node_size t <= 2056.
Proof. intros B. assert (C : t = 1 \/ t = 2 \/ t = 3 \/ t = 4 \/ t = 5) by lia. destruct C as [->|[->|[->|[->| ->]]]]; cbn; lia. Qed.
Lemma sget_cons s l i : sget (s :: l) i = if i =? 0 then Some s else sget l (i - 1).
Proof.
  unfold sget. rewrite zlen_cons. destruct (Z.eqb_spec i 0) as [->|N].
  - replace (0 <? zlen l + 1) with true by (pose proof (zlen_nonneg l); lia). reflexivity.
  - destruct (0 <=? i) eqn:A; cbn [andb]; [|now replace (0 <=? i - 1) with false by lia]. replace (0 <=? i - 1) with true by lia. cbn [andb].
    replace (i - 1 <? zlen l) with (i <? zlen l + 1) by lia. destruct (i <? zlen l + 1); auto. now replace (Z.to_nat i) with (S (Z.to_nat (i - 1))) by lia.
Qed.
Lemma sget_nil i : sget [] i = None.
Proof. destruct (sget [] i) eqn:E; auto. apply sget_range in E. unfold zlen in E. cbn in E. lia. Qed.
Lemma array_ok g t l : 1 <= t <= 5 -> Forall (slot_ok t) l -> forall j,
  zlen (array_bytes g t j l) = zlen l * node_size t /\
  forall i, sget (slots_of (length l) t (array_bytes g t j l)) i = option_map (fun s => slot_of_bytes t (slot_bytes (g (j + i)) t s)) (sget l i).
Proof.
  intros B F. induction F as [|s l S F IH]; intros j; cbn [array_bytes length slots_of].
  - split; [reflexivity|]. intros i. now rewrite !sget_nil.
  - destruct (IH (j + 1)) as (IH1 & IH2). pose proof (slot_zlen (g j) t s B S) as Z. split; [rewrite zlen_app, zlen_cons, IH1, Z; lia|].
    intros i. rewrite firstn_app_l, skipn_app_l by (unfold zlen in Z; lia). rewrite !sget_cons. destruct (Z.eqb_spec i 0) as [->|N]; [cbn; now rewrite Z.add_0_r|].
    rewrite IH2. now replace (j + 1 + (i - 1)) with (j + i) by lia.
Qed.

Definition total (a : art) (ts : list Z) : Z := fold_right (fun t s => capacity a t * node_size t + s) 0 ts.
Definition arrays (g : Z -> Z -> Z -> Z) (a : art) (ts : list Z) : list Z := flat_map (fun t => array_bytes (g t) t 0 (a_nodes a t)) ts.
(** the bytes written *)
Definition art_image (g : Z -> Z -> Z -> Z) (a : art) : list Z := le 8 (a_root a) ++ les 8 (capacities a) ++ arrays g a types.
Definition slots_ok (a : art) : Prop := forall t, 1 <= t <= 5 -> Forall (slot_ok t) (a_nodes a t).
Lemma arrays_zlen g a ts : slots_ok a -> (forall t, In t ts -> 1 <= t <= 5) -> zlen (arrays g a ts) = total a ts.
Proof.
  intros H. induction ts as [|t ts IH]; intros B; [reflexivity|]. unfold arrays. cbn [flat_map total fold_right]. rewrite zlen_app. destruct (array_ok (g t) t (a_nodes a t) (B t (or_introl eq_refl)) (H t (B t (or_introl eq_refl))) 0) as (E & _).
  rewrite E. fold (arrays g a ts). rewrite IH by (intros; apply B; now right). reflexivity.
Qed.
Lemma total_nonneg a ts : (forall t, In t ts -> 1 <= t <= 5) -> 0 <= total a ts.
Proof.
  induction ts as [|t ts IH]; intros B; cbn [total fold_right]; [lia|]. fold (total a ts). specialize (IH ltac:(intros; apply B; now right)). pose proof (node_size_pos t (B t (or_introl eq_refl))). pose proof (zlen_nonneg (a_nodes a t)). unfold capacity. nia.
Qed.
Lemma types_range t : In t types -> 1 <= t <= 5.
Proof. cbn. lia. Qed.
Lemma In_types t : 1 <= t <= 5 -> In t types.
Proof. cbn. lia. Qed.
Lemma image_zlen g a : slots_ok a -> zlen (art_image g a) = 56 + total a types.
Proof. intros H. unfold art_image. rewrite !zlen_app, le_zlen, les_zlen, arrays_zlen by (auto; apply types_range). change (zlen (capacities a)) with 6. lia. Qed.
Lemma size_ok g a : slots_ok a -> art_is_shrunken a = true -> zlen (art_image g a) < 2^64 -> art_size_in_bytes a = zlen (art_image g a).
Proof.
  intros H S B. rewrite (image_zlen g) in * by auto. unfold art_size_in_bytes. rewrite S. cbn [negb]. replace (8 + 6 * 8 + (align_size (8 + 6 * 8) 8 - (8 + 6 * 8))) with 56 by reflexivity. unfold u64.
  pose proof (total_nonneg a types types_range) as N. unfold total, types in *. cbn [fold_left fold_right] in *. rewrite Z.mod_small; lia.
Qed.
Lemma write_arrays_ok g a ts : slots_ok a -> (forall t, In t ts -> 1 <= t <= 5) -> forall st pre rest, cursor st pre rest -> total a ts <= zlen rest ->
  exists st', write_arrays g a ts st = Some st' /\ cursor st' (pre ++ arrays g a ts) (skipn (length (arrays g a ts)) rest).
Proof.
  intros H. induction ts as [|t ts IH]; intros B st pre rest C L; cbn [write_arrays].
  - eexists. split; [reflexivity|]. cbn. now rewrite app_nil_r.
  - cbn [total fold_right] in L. fold (total a ts) in L. unfold arrays. cbn [flat_map]. fold (arrays g a ts).
    assert (Bt : 1 <= t <= 5) by (apply B; now left). assert (B' : forall t, In t ts -> 1 <= t <= 5) by (intros; apply B; now right). pose proof (total_nonneg a ts B'). pose proof (node_size_pos t Bt).
    destruct (array_ok (g t) t (a_nodes a t) Bt (H t Bt) 0) as (E & _). fold (capacity a t) in E.
    destruct (0 <? capacity a t) eqn:Q.
    + destruct (wr_cursor (array_bytes (g t) t 0 (a_nodes a t)) (capacity a t * node_size t) st pre rest C ltac:(lia) ltac:(lia)) as (st1 & W & C1). rewrite W. cbn [obind].
      destruct (IH B' _ _ _ C1) as (st2 & W2 & C2). { unfold zlen in *. rewrite skipn_length. lia. }
      exists st2. split; auto. rewrite app_assoc. unfold cursor in *. rewrite C2. f_equal. f_equal. now rewrite app_length, skipn_skipn'.
    + cbn [obind]. assert (Z0 : capacity a t = 0) by (pose proof (zlen_nonneg (a_nodes a t)); unfold capacity in *; lia). assert (a_nodes a t = []) as ->. { unfold capacity, zlen in Z0. destruct (a_nodes a t); auto. cbn in Z0. lia. }
      cbn [array_bytes app]. apply IH; auto. nia.
Qed.
Lemma art_serialize_ok g a st pre rest : slots_ok a -> art_is_shrunken a = true -> cursor st pre rest -> zlen (art_image g a) <= zlen rest ->
  exists st', art_serialize g a st = Some st' /\ cursor st' (pre ++ art_image g a) (skipn (length (art_image g a)) rest).
Proof.
  intros H S C L. rewrite image_zlen in L by auto. pose proof (total_nonneg a types types_range). unfold art_serialize. rewrite S. cbn [negb].
  destruct (wr_cursor (le 8 (a_root a)) 8 st pre rest C) as (s1 & W1 & C1); [rewrite le_zlen; lia|now rewrite le_zlen|]. rewrite W1. cbn [obind].
  assert (L6 : zlen (les 8 (capacities a)) = 48) by (now rewrite les_zlen). rewrite le_length in C1.
  destruct (wr_cursor (les 8 (capacities a)) (6 * 8) s1 _ _ C1) as (s2 & W2 & C2); [unfold zlen in *; rewrite skipn_length; lia|lia|]. rewrite W2. cbn [obind].
  assert (P2 : snd s2 - snd st = 56). { rewrite C2, C. cbn [snd]. rewrite !zlen_app, le_zlen, L6. lia. }
  cbv zeta. rewrite P2. change (align_size 56 8 - 56) with 0. change (repeat 0 (Z.to_nat 0)) with (@nil Z).
  destruct (wr_cursor [] 0 s2 _ _ C2) as (s3 & W3 & C3); [pose proof (zlen_nonneg (skipn (length (les 8 (capacities a))) (skipn 8 rest))); change (zlen (@nil Z)) with 0; lia|reflexivity|]. rewrite W3. cbn [obind]. rewrite app_nil_r in C3. change (length (@nil Z)) with O in C3. rewrite skipn_O in C3.
  destruct (write_arrays_ok g a types H types_range _ _ _ C3) as (s4 & W4 & C4). { unfold zlen in *. rewrite !skipn_length. lia. }
  exists s4. split; auto. unfold cursor, art_image in *. rewrite C4. rewrite <- !app_assoc. f_equal. f_equal. f_equal. f_equal. rewrite !app_length, !skipn_skipn', le_length. f_equal.
Qed.

Definition view_slots (g : Z -> Z -> Z -> Z) (a : art) (t : Z) : list slot := slots_of (length (a_nodes a t)) t (array_bytes (g t) t 0 (a_nodes a t)).
Lemma view_arrays_ok g a caps ts : slots_ok a -> NoDup ts -> (forall t, In t ts -> 1 <= t <= 5) -> (forall t, 1 <= t <= 5 -> caps t = capacity a t) -> forall buf A C mb nodes, buf = A ++ arrays g a ts ++ C -> total a ts <= mb -> total a ts < 2^64 ->
  exists nodes', view_arrays buf caps ts (zlen A) mb nodes = Some (nodes', zlen A + total a ts, true) /\
    (forall t, In t ts -> nodes' t = if 0 <? capacity a t then view_slots g a t else nodes t) /\ forall t, ~ In t ts -> nodes' t = nodes t.
Proof.
  intros H. induction ts as [|t ts IH]; intros N B EC buf A C mb nodes EB M U; cbn [view_arrays].
  - exists nodes. cbn. rewrite Z.add_0_r. split; auto. split; tauto.
  - cbn [total fold_right] in *. fold (total a ts) in *. unfold arrays in EB. cbn [flat_map] in EB. fold (arrays g a ts) in EB. inversion N as [|? ? NI N']; subst x l.
    assert (Bt : 1 <= t <= 5) by (apply B; now left). assert (B' : forall t, In t ts -> 1 <= t <= 5) by (intros; apply B; now right). pose proof (total_nonneg a ts B'). pose proof (node_size_pos t Bt). pose proof (zlen_nonneg (a_nodes a t)) as NN. fold (capacity a t) in NN.
    destruct (array_ok (g t) t (a_nodes a t) Bt (H t Bt) 0) as (E & _). fold (capacity a t) in E. rewrite EC by auto.
    destruct (0 <? capacity a t) eqn:Q.
    + assert (u64 (capacity a t * node_size t) = capacity a t * node_size t) as -> by (unfold u64; apply Z.mod_small; nia). replace (mb <? capacity a t * node_size t) with false by nia.
      rewrite <- app_assoc in EB. rewrite (EB). rewrite (rd_at A (array_bytes (g t) t 0 (a_nodes a t))) by lia. cbn [obind]. rewrite <- EB. rewrite Z.div_mul by lia. rewrite <- E, <- zlen_app.
      replace (Z.to_nat (capacity a t)) with (length (a_nodes a t)) by (unfold capacity, zlen; lia). fold (view_slots g a t).
      destruct (IH N' B' EC buf (A ++ array_bytes (g t) t 0 (a_nodes a t)) C (mb - zlen (array_bytes (g t) t 0 (a_nodes a t))) (Art.fset nodes t (view_slots g a t))) as (nd & V & V1 & V2); [now rewrite EB, <- app_assoc|lia|lia|].
      exists nd. rewrite V. split; [do 3 f_equal; rewrite zlen_app; lia|]. split.
      * intros t' [->|I]; [rewrite V2 by auto; unfold Art.fset; now rewrite Z.eqb_refl, Q|]. rewrite V1 by auto. destruct (0 <? capacity a t'); auto. unfold Art.fset. destruct (Z.eqb_spec t' t) as [->|]; auto. contradiction.
      * intros t' I. rewrite V2 by (intros X; apply I; now right). unfold Art.fset. destruct (Z.eqb_spec t' t) as [->|]; auto. exfalso. apply I. now left.
    + assert (Z0 : capacity a t = 0) by lia. assert (EN : a_nodes a t = []). { unfold capacity, zlen in Z0. destruct (a_nodes a t); auto. cbn in Z0. lia. }
      rewrite EN in EB. cbn [array_bytes app] in EB. destruct (IH N' B' EC buf A C mb nodes EB) as (nd & V & V1 & V2); [nia|nia|]. exists nd. rewrite V. rewrite Z0. split; [do 2 f_equal; f_equal; lia|]. split.
      * intros t' [->|I]; [rewrite V2 by auto; now rewrite Q|]. now apply V1.
      * intros t' I. apply V2. intros X. apply I. now right.
Qed.
Lemma caps_decode a : (forall t, 1 <= t <= 5 -> capacity a t < 2^64) -> le_vals 8 6 (les 8 (capacities a)) = capacities a.
Proof.
  intros H. change 6%nat with (length (capacities a)). apply le_vals_les_id. unfold capacities, types. cbn [map].
  assert (X : forall t, 1 <= t <= 5 -> 0 <= capacity a t < 2^64) by (intros t B; split; [apply zlen_nonneg|auto]). repeat (constructor; [try (apply X; lia); lia|]). constructor.
Qed.
Lemma art_frozen_view_raw g a buf A C mb : slots_ok a -> buf = A ++ art_image g a ++ C -> zlen A mod 8 = 0 -> 0 <= a_root a < 2^64 -> zlen A + 64 < 2^64 ->
  zlen (art_image g a) <= mb -> zlen (art_image g a) < 2^64 ->
  exists b, art_frozen_view buf (zlen A) mb = Some (keep_reachable b, zlen (art_image g a)) /\ a_root b = a_root a /\ forall t, 1 <= t <= 5 -> a_ff b t = capacity a t /\ a_nodes b t = view_slots g a t.
Proof.
  intros H EB M8 Rt BA M U. rewrite image_zlen in * by auto. pose proof (total_nonneg a types types_range) as TN. pose proof (zlen_nonneg A) as NA.
  assert (CB : forall t, 1 <= t <= 5 -> capacity a t < 2^64).
  { intros t B. pose proof (zlen_nonneg (a_nodes a 1)); pose proof (zlen_nonneg (a_nodes a 2)); pose proof (zlen_nonneg (a_nodes a 3)); pose proof (zlen_nonneg (a_nodes a 4)); pose proof (zlen_nonneg (a_nodes a 5)).
    unfold total, types in U. cbn [fold_right] in U. unfold capacity in *. change (node_size 1) with 16 in *. change (node_size 2) with 48 in *. change (node_size 3) with 152 in *. change (node_size 4) with 656 in *. change (node_size 5) with 2056 in *.
    assert (D : t = 1 \/ t = 2 \/ t = 3 \/ t = 4 \/ t = 5) by lia. destruct D as [->|[->|[->|[->| ->]]]]; lia. }
  unfold art_frozen_view. replace (mb <? 8) with false by lia. unfold art_image in EB. rewrite <- !app_assoc in EB.
  assert (R1 : rdv 8 buf (zlen A) = Some (a_root a)) by (rewrite EB; apply rdv_le; [auto|exact Rt]). rewrite R1. cbn [obind]. cbv zeta. replace (mb - 8 <? 6 * 8) with false by lia.
  assert (L6 : zlen (les 8 (capacities a)) = 48) by (now rewrite les_zlen).
  assert (R2 : rd buf (zlen A + 8) (6 * 8) = Some (les 8 (capacities a))).
  { rewrite EB. rewrite (app_assoc A). apply rd_at; [rewrite zlen_app, le_zlen; lia|lia]. }
  rewrite R2. cbn [obind]. rewrite caps_decode by auto.
  assert (AL : align_size (zlen A + 8 + 6 * 8) 8 = zlen A + 56). { replace (zlen A + 8 + 6 * 8) with (zlen A + 56) by lia. apply (align_same (zlen A + 56) 3); try lia. }
  rewrite AL. replace (zlen A + 56 - (zlen A + 8 + 6 * 8)) with 0 by lia. replace (mb - 8 - 6 * 8 <? 0) with false by lia.
  assert (ZA : zlen A + 56 = zlen (A ++ le 8 (a_root a) ++ les 8 (capacities a))) by (rewrite !zlen_app, le_zlen, L6; lia). rewrite ZA.
  destruct (view_arrays_ok g a (fun t => znth (capacities a) t) types H ltac:(repeat constructor; cbn; lia) types_range
    ltac:(intros t B; assert (D : t = 1 \/ t = 2 \/ t = 3 \/ t = 4 \/ t = 5) by lia; destruct D as [->|[->|[->|[->| ->]]]]; reflexivity)
    buf (A ++ le 8 (a_root a) ++ les 8 (capacities a)) C (mb - 8 - 6 * 8 - 0) (fun _ => [])) as (nd & V & V1 & _); [now rewrite EB, <- !app_assoc|lia|lia|].
  rewrite V. cbn [obind]. eexists. split; [do 2 f_equal; rewrite <- ZA; lia|]. split; [reflexivity|]. intros t B. cbn [a_ff a_nodes]. split.
  - assert (D : t = 1 \/ t = 2 \/ t = 3 \/ t = 4 \/ t = 5) by lia; destruct D as [->|[->|[->|[->| ->]]]]; reflexivity.
  - rewrite V1 by (now apply In_types). destruct (0 <? capacity a t) eqn:Q; auto. unfold view_slots. assert (EN : a_nodes a t = []); [|now rewrite EN].
    pose proof (zlen_nonneg (a_nodes a t)). unfold capacity, zlen in *. destruct (a_nodes a t); auto. cbn [length] in *. lia.
Qed.

(** ** What a view reads *)
Lemma keep_sget live t l : forall j i, sget (keep_slots live t j l) i = option_map (fun s => if existsb (Z.eqb (art_to_ref (j + i) t)) live then s else Freed 0 0) (sget l i).
Proof.
  induction l as [|s l IH]; intros j i; cbn [keep_slots]; [now rewrite !sget_nil|]. rewrite !sget_cons. destruct (Z.eqb_spec i 0) as [->|N]; [cbn [option_map]; now rewrite Z.add_0_r|].
  rewrite IH. now replace (j + 1 + (i - 1)) with (j + i) by lia.
Qed.
Lemma keep_len live t l : forall j, zlen (keep_slots live t j l) = zlen l.
Proof. induction l as [|s l IH]; intros j; cbn [keep_slots]; auto. now rewrite !zlen_cons, IH. Qed.
Lemma slots_len n : forall t l, zlen (slots_of n t l) = Z.of_nat n.
Proof. induction n; intros t l; cbn [slots_of]; auto. rewrite zlen_cons, IHn. lia. Qed.
Lemma live_In x l : existsb (Z.eqb x) l = true <-> In x l.
Proof. rewrite existsb_exists. split; [intros (y & I & E); apply Z.eqb_eq in E; now subst|intros I; exists x; split; auto; apply Z.eqb_refl]. Qed.
Lemma reach_refs b t : forall p f, holds b t -> wft p t -> 6 - zlen p <= Z.of_nat f -> reach f b (tref t) = refs t.
Proof.
  induction t as [r k v|r pre ch IH] using T_ind'; intros p f H W L.
  - cbn [tref refs]. destruct f; cbn [reach]; auto. cbn [holds] in H. rewrite H. reflexivity.
  - apply holds_TN in H. apply wft_TN in W. destruct H as ((n & D & _ & _ & _ & K) & H), W as (LP & _ & _ & _ & _ & W). rewrite refs_TN. cbn [tref]. pose proof (zlen_nonneg pre).
    destruct f as [|f]; [change (Z.of_nat 0) with 0 in L; lia|]. cbn [reach]. rewrite D, K. f_equal. unfold krefs, refsl. rewrite flat_map_concat_map, flat_map_concat_map, map_map. f_equal. apply map_ext_in. intros [k c] I. cbn [snd].
    rewrite Forall_forall in IH. pose proof (allp_In _ _ _ _ H I) as HI. pose proof (allp_In _ _ _ _ W I) as WI. cbn beta in *. apply (IH _ I (((p ++ pre) ++ [k])) f HI WI). rewrite !zlen_app. change (zlen [k]) with 1. lia.
Qed.
Lemma holds_sim a b t : (forall x n, In x (refs t) -> art_deref a x = Some n -> exists n', art_deref b x = Some n' /\ nsim n n') -> holds a t -> holds b t.
Proof.
  induction t as [r k v|r pre ch IH] using T_ind'; intros E H.
  - cbn [holds] in *. destruct (E r _ (or_introl eq_refl) H) as (n' & D & S). cbn in S. congruence.
  - apply holds_TN in H. apply holds_TN. rewrite refs_TN in E. destruct H as ((n & D & W & LO & P & K) & H). split.
    + destruct (E r n (or_introl eq_refl) D) as (n' & D' & S). exists n'. split; auto. destruct n as [?k ?v| | | |]; [destruct W as (_ & _ & [])| | | |]; destruct S as (T & W' & P' & K'); rewrite P', K', P, K; repeat split; auto; try apply W';
        rewrite K in LO; destruct n'; cbn in T; try discriminate; exact LO.
    + eapply allp_impl; [|exact H]. intros k c I Hc. rewrite Forall_forall in IH. apply (IH _ I); auto. intros x n0 X. apply E. right. apply in_flat_map. exists (k, c). auto.
Qed.

Definition fits (a : art) (fl : list entry) : Prop := (forall t, 1 <= t <= 5 -> capacity a t <= 2^48) /\ forall k lf v, In (k, (lf, v)) fl -> 0 <= v < 2^64.
Lemma ref_range a x n : (forall t, 1 <= t <= 5 -> capacity a t <= 2^48) -> art_deref a x = Some n -> 0 <= x < 2^64.
Proof.
  intros C D. apply deref_inv in D as (G & T0 & E). pose proof (ntype_range n) as B. apply sget_range in G. specialize (C _ B). unfold capacity in C. rewrite E. unfold art_to_ref. lia.
Qed.
Lemma tree_enc a t : (forall t, 1 <= t <= 5 -> capacity a t <= 2^48) -> forall p, holds a t -> wft p t -> (forall k lf v, In (k, (lf, v)) (flat t) -> 0 <= v < 2^64) -> forall x n, In x (refs t) -> art_deref a x = Some n -> enc_ok n.
Proof.
  intros C. induction t as [r k v|r pre ch IH] using T_ind'; intros p H W V x n X D.
  - destruct X as [<-|[]]. cbn [holds] in H. rewrite H in D. injection D as <-. cbn [enc_ok]. destruct W as (A & B & _). split; [split; auto|]. apply (V k r v). now left.
  - apply holds_TN in H. apply wft_TN in W. destruct H as ((m & Dm & Wm & _ & P & K) & H), W as (LP & BP & _ & _ & _ & W). rewrite refs_TN in X. destruct X as [<-|X].
    + rewrite Dm in D. injection D as <-. assert (Q : wf m /\ bytes (node_prefix m) /\ Forall (fun p => 0 <= snd p < 2^64) (kids m)).
      { split; auto. rewrite P, K. split; auto. unfold krefs. apply Forall_map. apply Forall_forall. intros [k c] I. cbn [snd fst]. pose proof (allp_In _ _ _ _ H I) as HI. cbn beta in HI. destruct (node_of _ _ HI) as (nc & Dc). eapply ref_range; eauto. }
      destruct m; cbn [enc_ok]; auto. destruct Wm as (_ & _ & []).
    + unfold refsl in X. apply in_flat_map in X as ([k c] & I & X). cbn [snd] in X. rewrite Forall_forall in IH. pose proof (allp_In _ _ _ _ H I) as HI. pose proof (allp_In _ _ _ _ W I) as WI. cbn beta in *.
      apply (IH _ I _ HI WI) with (x := x); auto. intros k0 lf v0 I0. apply (V k0 lf v0). rewrite flat_TN. unfold flatl. apply in_flat_map. exists (k, c). auto.
Qed.
Lemma sget_In l s : In s l -> exists i, sget l i = Some s.
Proof.
  induction l as [|s0 l IH]; intros []; [subst; exists 0; now rewrite sget_cons|]. destruct IH as (i & G); auto. exists (i + 1). rewrite sget_cons. apply sget_range in G as R. replace (i + 1 =? 0) with false by lia. now replace (i + 1 - 1) with i by lia.
Qed.
Lemma arep_slots a fl : arep a fl -> fits a fl -> slots_ok a /\ 0 <= a_root a < 2^64.
Proof.
  intros (K & D) (C & V). split.
  - intros t B. apply Forall_forall. intros s I. apply sget_In in I as (i & G). destruct (K t B) as (fr & _ & _ & Q). specialize (Q i s G). destruct s as [n|]; cbn [slot_ok]; auto. split; auto.
    pose proof (deref_intro a i t n G Q) as DI. destruct D as [(_ & _ & D)|(tr & (RT & H & W & _ & CV) & ->)]; [congruence|].
    eapply tree_enc; eauto. apply CV. congruence.
  - destruct D as [(-> & _)|(tr & (<- & H & _) & _)]; [lia|]. destruct (node_of _ _ H) as (n & D). eapply ref_range; eauto.
Qed.
Lemma keep_arep g a fl b : arep a fl -> fits a fl -> a_root b = a_root a -> (forall t, 1 <= t <= 5 -> a_ff b t = capacity a t /\ a_nodes b t = view_slots g a t) -> arep (keep_reachable b) fl.
Proof.
  intros AR FT ER EB. destruct (arep_slots _ _ AR FT) as (SO & _). destruct AR as (K & D), FT as (C & V).
  assert (SG : forall t i, 1 <= t <= 5 -> sget (a_nodes b t) i = option_map (fun s => slot_of_bytes t (slot_bytes (g t i) t s)) (sget (a_nodes a t) i)).
  { intros t i B. destruct (EB t B) as (_ & ->). unfold view_slots. destruct (array_ok (g t) t (a_nodes a t) B (SO t B) 0) as (_ & E). apply E. }
  assert (DB : forall x n, art_deref a x = Some n -> exists n', art_deref b x = Some n' /\ nsim n n').
  { intros x n Dx. pose proof (deref_inv _ _ _ Dx) as (G & T0 & E). pose proof (ntype_range n) as B. specialize (SG (ntype n) (art_ref_index x) B). rewrite G in SG. cbn [option_map] in SG.
    assert (EN : enc_ok n). { pose proof (SO _ B) as F. rewrite Forall_forall in F. assert (I : In (Used n) (a_nodes a (ntype n))). { unfold sget in G. destruct (_ && _); [|discriminate]. eapply nth_error_In; eauto. } apply F in I. apply I. }
    destruct (decode_encode (g (ntype n) (art_ref_index x)) n EN) as (n' & DE & S). cbn [slot_bytes] in SG. unfold slot_of_bytes in SG. rewrite DE in SG. exists n'. split; auto.
    assert (T1 : ntype n' = ntype n) by (destruct n; cbn [nsim] in S; [now subst| | | |]; apply S). rewrite E. apply deref_intro; auto. }
  set (live := reach 6 b (a_root b)).
  assert (CG : forall t i, sget (a_nodes (keep_reachable b) t) i = option_map (fun s => if existsb (Z.eqb (art_to_ref i t)) live then s else Freed 0 0) (sget (a_nodes b t) i)).
  { intros t i. cbn [keep_reachable a_nodes]. fold live. apply keep_sget. }
  assert (CD1 : forall x n, art_deref (keep_reachable b) x = Some n -> In x live).
  { intros x n Dx. apply deref_inv in Dx as (G & T0 & E). rewrite CG in G. destruct (sget (a_nodes b (ntype n)) (art_ref_index x)); [|discriminate]. cbn [option_map] in G. rewrite <- E in G. destruct (existsb (Z.eqb x) live) eqn:X; [|discriminate]. now apply live_In. }
  assert (CD2 : forall x n, In x live -> art_deref b x = Some n -> art_deref (keep_reachable b) x = Some n).
  { intros x n I Dx. apply deref_inv in Dx as (G & T0 & E). rewrite E. apply deref_intro; auto. rewrite CG, G. cbn [option_map]. rewrite <- E. apply live_In in I. now rewrite I. }
  assert (FF : forall t, 1 <= t <= 5 -> a_ff (keep_reachable b) t = zlen (a_nodes (keep_reachable b) t)).
  { intros t B. cbn [keep_reachable a_ff a_nodes]. rewrite keep_len. destruct (EB t B) as (-> & ->). unfold view_slots. rewrite slots_len. reflexivity. }
  assert (SOK : (forall x, In x live -> x = 0 \/ exists n, art_deref b x = Some n) -> sok (keep_reachable b)).
  { intros Q t B. exists []. split; [exact (FF t B)|]. split; [constructor|]. intros i s G. destruct s as [n|]; auto. rewrite CG in G. destruct (sget (a_nodes b t) i) as [s|] eqn:G0; [|discriminate]. cbn [option_map] in G.
    destruct (existsb (Z.eqb (art_to_ref i t)) live) eqn:X; [|discriminate]. injection G as ->. apply live_In in X. apply sget_range in G0 as R0. destruct (Q _ X) as [E|(m & Dm)]; [unfold art_to_ref in E; lia|].
    apply deref_inv in Dm as (Gm & Tm & _). rewrite ref_index_to in Gm by lia. rewrite ref_type_to in Tm by lia. rewrite <- Tm in Gm. congruence. }
  destruct D as [(R0 & -> & D)|(tr & (RT & H & W & N & CV) & ->)].
  - assert (LV : live = [0]). { unfold live. rewrite ER, R0. cbn [reach]. now rewrite deref_zero. }
    split; [apply SOK; rewrite LV; intros x [<-|[]]; now left|]. left. split; [cbn [keep_reachable a_root]; congruence|]. split; auto. intros x. destruct (art_deref (keep_reachable b) x) eqn:E; auto.
    pose proof (CD1 _ _ E) as I. rewrite LV in I. destruct I as [<-|[]]. rewrite deref_zero in E. discriminate.
  - assert (HB : holds b tr) by (eapply holds_sim; [|exact H]; intros; eauto).
    assert (LV : live = refs tr). { unfold live. rewrite ER, <- RT. eapply reach_refs; eauto. change (zlen (@nil Z)) with 0. lia. }
    assert (LD : forall x, In x (refs tr) -> exists n, art_deref b x = Some n). { intros x I. destruct (art_deref b x) eqn:E; eauto. exfalso. exact (holds_live b tr x HB I E). }
    split; [apply SOK; rewrite LV; intros x I; right; auto|]. right. exists tr. split; auto. split; [cbn [keep_reachable a_root]; congruence|]. split; [|split; [auto|split; [auto|]]].
    + eapply holds_ext; [|exact HB]. intros x I. destruct (LD x I) as (n & Dn). rewrite Dn. apply CD2; auto. now rewrite LV.
    + intros x Dx. destruct (art_deref (keep_reachable b) x) eqn:E; [|congruence]. rewrite <- LV. eapply CD1; eauto.
Qed.

(** the image of a tree, and the tree seen through it *)
Theorem art_frozen_view_ok g a fl A C mb : arep a fl -> fits a fl -> zlen A mod 8 = 0 -> zlen A + 64 < 2^64 -> zlen (art_image g a) <= mb -> zlen (art_image g a) < 2^64 ->
  exists b, art_frozen_view (A ++ art_image g a ++ C) (zlen A) mb = Some (b, zlen (art_image g a)) /\ arep b fl /\ forall t, 1 <= t <= 5 -> capacity b t = capacity a t /\ a_ff b t = capacity a t.
Proof.
  intros AR FT M8 BA M U. destruct (arep_slots _ _ AR FT) as (SO & Rt). destruct (art_frozen_view_raw g a _ A C mb SO eq_refl M8 Rt BA M U) as (b & V & ER & EB). exists (keep_reachable b). split; auto. split; [eapply keep_arep; eauto|].
  intros t B. destruct (EB t B) as (E1 & E2). unfold capacity. cbn [keep_reachable a_nodes a_ff]. rewrite keep_len, E1, E2. unfold view_slots. rewrite slots_len. split; reflexivity.
Qed.
