(** RQuery: roaring.c queries that enumerate or count: rank, rank_many, select,
    get_index, minimum, maximum, is_empty, to_uint32_array, range_uint32_array,
    roaring_iterate, statistics, internal_validate, and the re-encodings
    run_optimize and remove_run_compression. *)
From Verif Require Import Base ArrayUtil BitUtil BitsetC ArrayC RunC RunD Convert MixedI MixedU MixedA MixedN Containers RArray RBinary RPoint RRange.
Local Opaque zr.

(** ** Code *)
(** roaring.c:2586-2604 roaring_bitmap_rank: the loop over the containers *)
Fixpoint rank_loop (r : bitmap) (x size : Z) : Z :=
  match r with
  | [] => size
  | (key, c) :: t =>
    let xhigh := Z.shiftr x 16 in
    if key <? xhigh then rank_loop t x (size + container_get_cardinality c)
    else if xhigh =? key then size + container_rank c (Z.land x 65535)
    else size
  end.
Definition roaring_bitmap_rank (r : bitmap) (x : Z) : Z := rank_loop r x 0.
(** roaring.c:2605-2631 roaring_bitmap_rank_many: the list of values written to ans,
    in order; each iteration advances i (dropping the head of r) or iter (dropping
    the head of the queries) *)
Fixpoint rank_many_loop (fuel : nat) (r : bitmap) (qs : list Z) (size : Z) : list Z :=
  match fuel with
  | O => []
  | S f =>
    match r, qs with
    | (key, c) :: t, x :: qs' =>
      let xhigh := Z.shiftr x 16 in
      if key <? xhigh then rank_many_loop f t qs (size + container_get_cardinality c)
      else if xhigh =? key then
        let out := container_rank_many c size qs in
        out ++ rank_many_loop f r (zdrop (zlen out) qs) size
      else size :: rank_many_loop f r qs' size
    | _, _ => []
    end
  end.
Definition roaring_bitmap_rank_many (r : bitmap) (qs : list Z) : list Z :=
  rank_many_loop (S (length r + length qs)) r qs 0.
(** roaring.c:2636-2659 roaring_bitmap_get_index *)
Fixpoint get_index_loop (r : bitmap) (x index : Z) (high_c : container) : Z :=
  match r with
  | [] => index
  | (key, c) :: t =>
    let xhigh := Z.shiftr x 16 in
    if key <? xhigh then get_index_loop t x (index + container_get_cardinality c) high_c
    else if xhigh =? key then
      let low_idx := container_get_index high_c (Z.land x 65535) in
      if low_idx <? 0 then -1 else index + low_idx
    else -1
  end.
Definition roaring_bitmap_get_index (r : bitmap) (x : Z) : Z :=
  let high_idx := ra_get_index r (Z.shiftr x 16) in
  if high_idx <? 0 then -1 else get_index_loop r x 0 (rcon r high_idx).
(** roaring.c:2665-2674 roaring_bitmap_minimum; 2680-2692 roaring_bitmap_maximum *)
Definition roaring_bitmap_minimum (r : bitmap) : Z :=
  if 0 <? zlen r then Z.lor (container_minimum (rcon r 0)) (Z.shiftl (rkey r 0) 16) else 2^32 - 1.
Definition roaring_bitmap_maximum (r : bitmap) : Z :=
  if 0 <? zlen r then Z.lor (container_maximum (rcon r (zlen r - 1))) (Z.shiftl (rkey r (zlen r - 1)) 16) else 0.
(** roaring.c:2694-2716 roaring_bitmap_select; start_rank is the uint32 threaded
    through container_select *)
Fixpoint select_loop (r : bitmap) (start_rank rank : Z) : option Z :=
  match r with
  | [] => None
  | (key, c) :: t =>
    match container_select c start_rank rank with
    | (Some element, _) => Some (Z.lor element (Z.shiftl key 16))
    | (None, start_rank') => select_loop t start_rank' rank
    end
  end.
Definition roaring_bitmap_select (r : bitmap) (rank : Z) : option Z := select_loop r 0 rank.
(** roaring.c:1392-1394 roaring_bitmap_is_empty *)
Definition roaring_bitmap_is_empty (r : bitmap) : bool := zlen r =? 0.
(** roaring_array.c:426-434 ra_to_uint32_array: the values written, in order *)
Definition roaring_bitmap_to_uint32_array (r : bitmap) : list Z :=
  flat_map (fun p => container_to_uint32_array (snd p) (Z.shiftl (fst p) 16)) r.
(** roaring_array.c:436-517 ra_range_uint32_array, reached through roaring.c:1400-1403.
    State of the loop: ctr, dtr, first_skip, and the temporary buffer t_ans
    (None before the first allocation): its first dtr entries and its length
    cur_len, everything from dtr on being zero (memset).  Result: None when ans is
    not written, otherwise the [limit] values copied to ans.  Allocation failures
    are not modelled; ctr, dtr and offset+limit are size_t values that do not wrap
    under the hypotheses of the theorems. *)
Fixpoint range_array_loop (r : bitmap) (offset limit ctr dtr first_skip : Z) (t_ans : option (list Z * Z))
  : Z * option (list Z * Z) :=
  match r with
  | [] => (first_skip, t_ans)
  | (key, c) :: t =>
    let t_limit := container_get_cardinality c in
    let '(dtr, first_skip, t_ans) :=
      if (offset <=? ctr + t_limit - 1) && (ctr <? offset + limit) then
        let '(first_skip, data, cur_len) :=
          match t_ans with
          | None => (offset - ctr, [], offset - ctr + limit)
          | Some (data, cur_len) => (first_skip, data, cur_len)
          end in
        let cur_len := if cur_len <? dtr + t_limit then cur_len + t_limit else cur_len in
        (dtr + t_limit, first_skip, Some (data ++ container_to_uint32_array c (Z.shiftl key 16), cur_len))
      else (dtr, first_skip, t_ans) in
    let ctr := ctr + t_limit in
    if limit <=? dtr - first_skip then (first_skip, t_ans)
    else range_array_loop t offset limit ctr dtr first_skip t_ans
  end.
Definition roaring_bitmap_range_uint32_array (r : bitmap) (offset limit : Z) : option (list Z) :=
  match range_array_loop r offset limit 0 0 0 None with
  | (first_skip, Some (data, cur_len)) =>
    Some (zfirst limit (zdrop first_skip (data ++ repeat 0 (Z.to_nat (cur_len - zlen data)))))
  | (_, None) => None
  end.
(** containers.h:1945-1963 container_iterate: the values handed to the callback
    (bitset.c:1063-1075, array.c:549-554, run.c:739-751) *)
Definition container_iterate_seq (c : container) (base : Z) : list Z :=
  match c with
  | CBit b => bitset_iterate_seq (b_words b) base
  | CArr a => map (fun v => v + base) a
  | CRun r => run_container_to_uint32_array r base
  end.
(** the callback is a state transformer that also says whether to go on; it does
    not modify the bitmap *)
Fixpoint iter_seq {S : Type} (f : S -> Z -> S * bool) (l : list Z) (s : S) : S * bool :=
  match l with
  | [] => (s, true)
  | v :: l' => let '(s', b) := f s v in if b then iter_seq f l' s' else (s', false)
  end.
(** roaring.c:1611-1621 roaring_iterate; 1623-1634 roaring_iterate64 hands
    high_bits | value instead *)
Fixpoint roaring_iterate {S : Type} (f : S -> Z -> S * bool) (r : bitmap) (s : S) : S * bool :=
  match r with
  | [] => (s, true)
  | (key, c) :: t =>
    let '(s', b) := iter_seq f (container_iterate_seq c (Z.shiftl key 16)) s in
    if b then roaring_iterate f t s' else (s', false)
  end.
Definition roaring_iterate64 {S : Type} (f : S -> Z -> S * bool) (r : bitmap) (high_bits : Z) (s : S) : S * bool :=
  roaring_iterate (fun s v => f s (Z.lor high_bits v)) r s.
(** containers.h:390-404 container_size_in_bytes: bitset.h:458-462, array.h:212-215,
    run.h:484-487 (serialized sizes inside a bitmap) *)
Definition container_size_in_bytes (c : container) : Z :=
  match c with CBit _ => 8192 | CArr a => zlen a * 2 | CRun r => 2 + 4 * zlen r end.
(** roaring.c:379-415 roaring_bitmap_statistics (roaring_types.h:56-87; the
    deprecated sum_value is left at 0).  The 32-bit counters do not wrap:
    at most 65536 containers of at most 65536 values... see statistics_spec. *)
Record roaring_statistics := mkStat {
  n_containers : Z; n_array_containers : Z; n_run_containers : Z; n_bitset_containers : Z;
  n_values_array_containers : Z; n_values_run_containers : Z; n_values_bitset_containers : Z;
  n_bytes_array_containers : Z; n_bytes_run_containers : Z; n_bytes_bitset_containers : Z;
  max_value : Z; min_value : Z; stat_cardinality : Z }.
Definition stat_step (s : roaring_statistics) (c : container) : roaring_statistics :=
  let card := container_get_cardinality c in
  let sbytes := container_size_in_bytes c in
  match c with
  | CBit _ => mkStat (n_containers s) (n_array_containers s) (n_run_containers s) (u32 (n_bitset_containers s + 1))
      (n_values_array_containers s) (n_values_run_containers s) (u32 (n_values_bitset_containers s + card))
      (n_bytes_array_containers s) (n_bytes_run_containers s) (u32 (n_bytes_bitset_containers s + sbytes))
      (max_value s) (min_value s) (stat_cardinality s + card)
  | CArr _ => mkStat (n_containers s) (u32 (n_array_containers s + 1)) (n_run_containers s) (n_bitset_containers s)
      (u32 (n_values_array_containers s + card)) (n_values_run_containers s) (n_values_bitset_containers s)
      (u32 (n_bytes_array_containers s + sbytes)) (n_bytes_run_containers s) (n_bytes_bitset_containers s)
      (max_value s) (min_value s) (stat_cardinality s + card)
  | CRun _ => mkStat (n_containers s) (n_array_containers s) (u32 (n_run_containers s + 1)) (n_bitset_containers s)
      (n_values_array_containers s) (u32 (n_values_run_containers s + card)) (n_values_bitset_containers s)
      (n_bytes_array_containers s) (u32 (n_bytes_run_containers s + sbytes)) (n_bytes_bitset_containers s)
      (max_value s) (min_value s) (stat_cardinality s + card)
  end.
Definition roaring_bitmap_statistics (r : bitmap) : roaring_statistics :=
  fold_left (fun s p => stat_step s (snd p)) r
    (mkStat (zlen r) 0 0 0 0 0 0 0 0 0 (roaring_bitmap_maximum r) (roaring_bitmap_minimum r) 0).
(** roaring.c:427-490 roaring_bitmap_internal_validate (size, allocation, flag and
    NULL checks concern parts that are not in the model) *)
Fixpoint keys_increasing (prev : Z) (ks : list Z) : bool :=
  match ks with [] => true | k :: t => if k <=? prev then false else keys_increasing k t end.
Definition roaring_bitmap_internal_validate (r : bitmap) : bool :=
  match rkeys r with
  | [] => true
  | k :: t => if negb (keys_increasing k t) then false
              else forallb (fun p => container_internal_validate (snd p)) r
  end.
(** roaring.c:1410-1426 roaring_bitmap_run_optimize *)
Definition is_run (c : container) : bool := match c with CRun _ => true | _ => false end.
Definition roaring_bitmap_run_optimize (r : bitmap) : bitmap * bool :=
  let r' := map (fun p => (fst p, convert_run_optimize (snd p))) r in
  (r', existsb (fun p => is_run (snd p)) r').
(** roaring.c:1444-1472 roaring_bitmap_remove_run_compression *)
Definition remove_run (c : container) : container :=
  match c with CRun x => convert_to_bitset_or_array_container x (run_container_cardinality x) | _ => c end.
Definition roaring_bitmap_remove_run_compression (r : bitmap) : bitmap * bool :=
  (map (fun p => (fst p, remove_run (snd p))) r, existsb (fun p => is_run (snd p)) r).

(** ** The sorted sequence of members *)
Definition celems (k : Z) (c : container) : list Z := map (fun x => x + 65536 * k) (vals (cmem c)).
Definition elems (r : bitmap) : list Z := flat_map (fun p => celems (fst p) (snd p)) r.
Lemma celems_In k c v : In v (celems k c) <-> 65536 * k <= v < 65536 * k + 65536 /\ cmem c (v - 65536 * k) = true.
Proof.
  unfold celems, vals. rewrite in_map_iff. split.
  - intros (x&<-&Hx). apply filter_In in Hx as [Hx Hm]. apply zr_In in Hx. split; [lia|]. now replace (x + 65536 * k - 65536 * k) with x by lia.
  - intros [H1 H2]. exists (v - 65536 * k). split; [lia|]. apply filter_In. split; auto. apply zr_In. lia.
Qed.
Lemma celems_incr k c : incr (celems k c).
Proof. unfold celems, vals. apply (incr_map_mono (fun x => x + 65536 * k)); [lia|]. apply incr_filter, zr_incr. Qed.
Lemma celems_zlen k c : zlen (celems k c) = ccard c.
Proof. unfold celems. rewrite zlen_map. reflexivity. Qed.
Lemma elems_cons k c t : elems ((k, c) :: t) = celems k c ++ elems t. Proof. reflexivity. Qed.
Lemma elems_app a b : elems (a ++ b) = elems a ++ elems b. Proof. apply flat_map_app. Qed.
Lemma elems_wf C lo r : gok C lo r -> 0 <= lo -> incr (elems r) /\ inb (65536 * lo) (2^32) (elems r).
Proof.
  revert lo. induction r as [|[k c] t IH]; intros lo G Hlo. { split; [exact I|constructor]. }
  apply gok_cons in G as (H1&H2&H3). destruct (IH (k + 1) H3 ltac:(lia)) as [I1 I2]. rewrite elems_cons. split.
  - apply incr_app. split; [apply celems_incr|]. split; auto. intros x y Hx Hy. apply celems_In in Hx. pose proof (inb_In _ _ _ _ I2 Hy). lia.
  - apply inb_app. split; apply inb_intro.
    + intros x Hx. apply celems_In in Hx. change (2^32) with (65536 * 65536). lia.
    + intros x Hx. pose proof (inb_In _ _ _ _ I2 Hx). lia.
Qed.
Lemma elems_In C lo r v : gok C lo r -> 0 <= lo -> (In v (elems r) <-> mem r v = true).
Proof.
  revert lo. induction r as [|[k c] t IH]; intros lo G Hlo. { split; [intros []|discriminate]. }
  apply gok_cons in G as (H1&H2&H3). rewrite elems_cons, in_app_iff, (IH (k + 1) H3) by lia. rewrite celems_In. unfold mem.
  destruct (Z.eq_dec (v / 65536) k) as [E|E].
  - rewrite E, km_head. rewrite (km_below C (k + 1)) by (auto; lia). replace (v - 65536 * k) with (v mod 65536) by dm. split; [intros [[]|]; [auto|discriminate]|].
    intros; left; split; auto. dm.
  - rewrite km_tail by auto. split; [intros [[]|]; [exfalso; apply E; dm|auto]|auto].
Qed.
Lemma elems_zlen r : bok r -> zlen (elems r) = bcardinal r.
Proof.
  intros B. unfold bcardinal. symmetry. destruct (elems_wf cok 0 r B) as [I1 I2]; [lia|]. apply cnt_list; auto.
  intros x Hx. rewrite (elems_In cok 0 r x B) by lia. reflexivity.
Qed.
(** counting members below a bound *)
Lemma elems_lb r n : bok r -> 0 <= n <= 2^32 -> lb (elems r) n = cnt (mem r) 0 n.
Proof.
  intros B Hn. destruct (elems_wf cok 0 r B) as [I1 I2]; [lia|]. symmetry. unfold lb. apply cnt_list.
  - now apply incr_filter.
  - apply inb_intro. intros x Hx. apply filter_In in Hx as [Hx Hl]. pose proof (inb_In _ _ _ _ I2 Hx). lia.
  - intros x Hx. rewrite filter_In, (elems_In cok 0 r x B) by lia. split; [intros; split; auto; lia|tauto].
Qed.

(** ** rank and get_index *)
Lemma rank_loop_spec r lo x size : gok cok lo r -> 0 <= lo <= 65536 -> 0 <= x < 2^32 ->
  rank_loop r x size = size + kcnt (fun k y => km r k y && (65536 * k + y <=? x)) lo.
Proof.
  revert lo size. induction r as [|[k0 c] t IH]; intros lo size G Hlo Hx; cbn [rank_loop].
  - rewrite kcnt_none; try lia. intros. reflexivity.
  - apply gok_cons in G as (K&D&T). destruct (val_split x Hx) as (E1&E2&_&H2). rewrite E1, E2. cbn zeta.
    rewrite (kcnt_step _ lo k0) by (try lia; intros j y Hj Hy; rewrite km_tail by lia; kmb T; auto).
    rewrite (cnt_ext (fun y => km ((k0, c) :: t) k0 y && (65536 * k0 + y <=? x)) (fun y => cmem c y && (65536 * k0 + y <=? x)))
      by (intros; now rewrite km_head).
    rewrite (kcnt_ext _ (fun k y => km t k y && (65536 * k + y <=? x)) (k0 + 1)) by (try lia; intros; now rewrite km_tail by lia).
    destruct (Z.ltb_spec k0 (x / 65536)); [|destruct (Z.eqb_spec (x / 65536) k0)].
    + rewrite (IH (k0 + 1)) by (auto; lia). rewrite container_get_cardinality_spec by auto. unfold ccard.
      rewrite (cnt_ext (fun y => cmem c y && (65536 * k0 + y <=? x)) (cmem c)); [lia|].
      intros y Hy. replace (65536 * k0 + y <=? x) with true by dm. apply andb_true_r.
    + rewrite container_rank_spec by auto. rewrite <- cnt_below by lia.
      rewrite (kcnt_none _ (k0 + 1)) by (try lia; intros k y Hk Hy; replace (65536 * k + y <=? x) with false by dm; apply andb_false_r).
      rewrite (cnt_ext (fun y => cmem c y && (65536 * k0 + y <=? x)) (fun y => cmem c y && (y <=? x mod 65536))); [lia|].
      intros y Hy. f_equal. dm.
    + rewrite (kcnt_none _ (k0 + 1)) by (try lia; intros k y Hk Hy; replace (65536 * k + y <=? x) with false by dm; apply andb_false_r).
      rewrite cnt_none; [lia|]. intros y Hy. replace (65536 * k0 + y <=? x) with false by dm. apply andb_false_r.
Qed.
Lemma kcnt_le r x : 0 <= x < 2^32 -> kcnt (fun k y => km r k y && (65536 * k + y <=? x)) 0 = cnt (mem r) 0 (x + 1).
Proof.
  intros. rewrite <- kcnt_rng by lia. apply kcnt_ext; [lia|]. intros k y Hk Hy. f_equal. unfold rng. lia.
Qed.
Theorem roaring_bitmap_rank_spec r x : bok r -> 0 <= x < 2^32 -> roaring_bitmap_rank r x = cnt (mem r) 0 (x + 1).
Proof. intros B Hx. unfold roaring_bitmap_rank. rewrite (rank_loop_spec r 0) by (auto; lia). rewrite kcnt_le by auto. lia. Qed.
Lemma get_index_loop_spec r lo x index hc : gok cok lo r -> 0 <= x < 2^32 -> look r (x / 65536) = Some hc -> cmem hc (x mod 65536) = true ->
  get_index_loop r x index hc = rank_loop r x index - 1.
Proof.
  revert lo index. induction r as [|[k0 c] t IH]; intros lo index G Hx L M; [discriminate|]. cbn [get_index_loop rank_loop look] in *.
  apply gok_cons in G as (K&D&T). destruct (val_split x Hx) as (E1&E2&_&H2). rewrite E1, E2 in *. cbn zeta.
  destruct (Z.ltb_spec k0 (x / 65536)); [|destruct (Z.eqb_spec (x / 65536) k0) as [E|E]].
  - destruct (Z.eqb_spec (x / 65536) k0); [lia|]. eauto.
  - inversion L; subst hc. rewrite container_get_index_spec by auto. rewrite M. rewrite container_rank_spec by auto.
    rewrite cnt_snoc by lia. rewrite M. pose proof (cnt_bound (cmem c) 0 (x mod 65536) ltac:(lia)). replace (_ <? 0) with false by lia. lia.
  - exfalso. apply look_some in L. apply (in_map fst) in L. pose proof (inb_In _ _ _ _ (proj1 (proj2 T)) L). cbn in *. lia.
Qed.
Lemma get_index_loop_miss r lo x index hc : gok cok lo r -> 0 <= x < 2^32 -> look r (x / 65536) = Some hc -> cmem hc (x mod 65536) = false ->
  get_index_loop r x index hc = -1.
Proof.
  revert lo index. induction r as [|[k0 c] t IH]; intros lo index G Hx L M; [discriminate|]. cbn [get_index_loop look] in *.
  apply gok_cons in G as (K&D&T). destruct (val_split x Hx) as (E1&E2&_&H2). rewrite E1, E2 in *. cbn zeta.
  destruct (Z.ltb_spec k0 (x / 65536)); [|destruct (Z.eqb_spec (x / 65536) k0) as [E|E]]; auto.
  - destruct (Z.eqb_spec (x / 65536) k0); [lia|]. eauto.
  - inversion L; subst hc. rewrite container_get_index_spec by auto. now rewrite M.
Qed.
Theorem roaring_bitmap_get_index_spec r x : bok r -> 0 <= x < 2^32 ->
  roaring_bitmap_get_index r x = if mem r x then roaring_bitmap_rank r x - 1 else -1.
Proof.
  intros B Hx. unfold roaring_bitmap_get_index, mem, km. destruct (val_split x Hx) as (E1&E2&H1&H2). rewrite E1. cbn zeta.
  destruct (Z.ltb_spec (ra_get_index r (x / 65536)) 0) as [L|L].
  - rewrite look_none; auto. intros Hin. apply (get_index_ge r _ B) in Hin. lia.
  - apply (get_index_ge r _ B) in L. rewrite get_index_lb by auto. destruct (look_index r _ B L) as [L1 L2]. rewrite L1.
    destruct (cmem (rcon r (lb (rkeys r) (x / 65536))) (x mod 65536)) eqn:M.
    + unfold roaring_bitmap_rank. now apply (get_index_loop_spec r 0).
    + now apply (get_index_loop_miss r 0).
Qed.

(** ** rank_many *)
Lemma filter_none {A} (f : A -> bool) l : (forall x, In x l -> f x = false) -> filter f l = [].
Proof. induction l as [|a l IH]; cbn; auto. intros H. rewrite (H a) by auto. apply IH. auto. Qed.
Lemma filter_same {A} (f : A -> bool) l : (forall x, In x l -> f x = true) -> filter f l = l.
Proof. induction l as [|a l IH]; cbn; auto. intros H. rewrite (H a) by auto. f_equal. apply IH. auto. Qed.
Lemma same_key_prefix_split h qs : exists rest, qs = same_key_prefix h qs ++ rest /\
  (forall q, In q (same_key_prefix h qs) -> Z.shiftr q 16 = h).
Proof.
  induction qs as [|q qs IH]; cbn [same_key_prefix]. { exists []. split; auto. intros q []. }
  destruct (Z.eqb_spec (Z.shiftr q 16) h).
  - destruct IH as (rest&E&F). exists rest. cbn [app]. split; [now f_equal|]. intros q' [<-|Hq]; auto.
  - exists (q :: qs). split; auto. intros q' [].
Qed.
Lemma sorted_app_r l1 l2 : Sorted.Sorted Z.le (l1 ++ l2) -> Sorted.Sorted Z.le l2.
Proof. induction l1; cbn; auto. intros H. inversion H; auto. Qed.
(** the queries that are answered: those whose high half does not exceed the last key *)
Definition answered (r : bitmap) (q : Z) : bool := existsb (fun k => q / 65536 <=? k) (rkeys r).
Lemma rank_many_loop_spec fuel r lo qs size : gok cok lo r -> 0 <= lo <= 65536 -> Sorted.Sorted Z.le qs ->
  (forall q, In q qs -> 0 <= q < 2^32) -> (length r + length qs < fuel)%nat ->
  rank_many_loop fuel r qs size = map (fun q => rank_loop r q size) (filter (answered r) qs).
Proof.
  revert r lo qs size. induction fuel as [|f IH]; intros r lo qs size G Hlo S HB Hf; [lia|]. cbn [rank_many_loop].
  destruct r as [|[key c] t]. { rewrite filter_none; auto. }
  destruct qs as [|x qs']; auto.
  pose proof (HB x (or_introl eq_refl)) as Hx. destruct (val_split x Hx) as (E1&E2&H1&H2). rewrite E1. cbn zeta.
  pose proof G as G'. apply gok_cons in G' as (K&D&T).
  assert (LE : forall q, In q qs' -> x <= q).
  { apply Sorted.Sorted_StronglySorted in S; [|intros a b d; lia]. inversion S as [|? ? ? F]; subst. rewrite Forall_forall in F. auto. }
  assert (SK : forall q, answered ((key, c) :: t) q = (q / 65536 <=? key) || answered t q) by reflexivity.
  destruct (Z.ltb_spec key (x / 65536)); [|destruct (Z.eqb_spec (x / 65536) key) as [E|E]].
  - rewrite (IH t (key + 1)) by (auto; cbn [length] in *; lia).
    assert (BG : forall q, In q (x :: qs') -> key < q / 65536).
    { intros q [<-|Hq]; auto. specialize (LE q Hq). dm. }
    rewrite (filter_ext_in (answered ((key, c) :: t)) (answered t)).
    2:{ intros q Hq. rewrite SK. specialize (BG q Hq). replace (q / 65536 <=? key) with false by lia. reflexivity. }
    apply map_ext_in. intros q Hq. apply filter_In in Hq as [Hq _]. cbn [rank_loop].
    destruct (val_split q (HB q Hq)) as (Q1&_). rewrite Q1. specialize (BG q Hq). now replace (key <? q / 65536) with true by lia.
  - assert (HB' : forall q, In q (x :: qs') -> 0 <= q) by (intros q Hq; specialize (HB q Hq); lia).
    rewrite (container_rank_many_spec c size x qs' D S HB'). rewrite E1, E.
    destruct (same_key_prefix_split key (x :: qs')) as (rest&SP&SKP). set (P := same_key_prefix key (x :: qs')) in *.
    assert (ZD : zdrop (zlen P) (x :: qs') = rest) by (rewrite SP; now apply zdrop_app). rewrite zlen_map, ZD.
    assert (NE : P <> []) by (unfold P; cbn [same_key_prefix]; rewrite E1, E, Z.eqb_refl; discriminate).
    rewrite (IH ((key, c) :: t) lo rest); auto.
    + rewrite SP, filter_app, map_app. f_equal. rewrite (filter_same (answered ((key, c) :: t)) P).
      * apply map_ext_in. intros q Hq. cbn [rank_loop]. assert (Hq' : In q (x :: qs')) by (rewrite SP; apply in_or_app; auto).
        destruct (val_split q (HB q Hq')) as (Q1&Q2&_&Q4). pose proof (SKP q Hq). rewrite Q2, Q1 in *.
        replace (key <? q / 65536) with false by lia. replace (q / 65536 =? key) with true by lia.
        rewrite container_rank_spec by auto. reflexivity.
      * intros q Hq. rewrite SK. pose proof (SKP q Hq) as Q. assert (Hq' : In q (x :: qs')) by (rewrite SP; apply in_or_app; auto).
        destruct (val_split q (HB q Hq')) as (Q1&_). rewrite Q1 in Q. replace (q / 65536 <=? key) with true by lia. reflexivity.
    + rewrite SP in S. now apply sorted_app_r in S.
    + intros q Hq. apply HB. rewrite SP. apply in_or_app. auto.
    + apply (f_equal (@length Z)) in SP. rewrite app_length in SP. destruct P; [congruence|]. cbn [length] in *. lia.
  - cbn [filter]. rewrite SK. replace (x / 65536 <=? key) with true by lia. cbn [orb map].
    rewrite (IH ((key, c) :: t) lo qs'); auto.
    + f_equal. cbn [rank_loop]. rewrite E1. replace (key <? x / 65536) with false by lia. now replace (x / 65536 =? key) with false by lia.
    + now inversion S.
    + intros q Hq. apply HB. now right.
    + cbn [length] in *. lia.
Qed.
Theorem roaring_bitmap_rank_many_spec r qs : bok r -> Sorted.Sorted Z.le qs -> (forall q, In q qs -> 0 <= q < 2^32) ->
  roaring_bitmap_rank_many r qs = map (roaring_bitmap_rank r) (filter (answered r) qs).
Proof. intros B S H. unfold roaring_bitmap_rank_many. rewrite (rank_many_loop_spec _ r 0) by (auto; lia). reflexivity. Qed.

(** ** select, minimum, maximum *)
Lemma lor_key x k : 0 <= x < 65536 -> Z.lor x (Z.shiftl k 16) = x + 65536 * k.
Proof.
  intros Hx. rewrite Z.shiftl_mul_pow2 by lia. change (2^16) with 65536.
  enough (E : Z.land x (k * 65536) = 0) by (rewrite <- Z.lxor_lor by auto; rewrite <- Z.add_nocarry_lxor by auto; lia). apply Z.bits_inj'. intros n Hn. rewrite Z.land_spec, Z.bits_0.
  destruct (Z_lt_dec n 16).
  - replace (k * 65536) with (k * 2^16) by reflexivity. rewrite Z.mul_pow2_bits_low by lia. apply andb_false_r.
  - replace x with (x mod 2^16) by (apply Z.mod_small; lia). rewrite Z.mod_pow2_bits_high by lia. reflexivity.
Qed.
Lemma znth_map_add l d i : 0 <= i < zlen l -> znth (map (fun x => x + d) l) i = znth l i + d.
Proof.
  intros. unfold znth. rewrite (nth_indep _ 0 (0 + d)) by (rewrite map_length; unfold zlen in *; lia). now rewrite (map_nth (fun x => x + d)).
Qed.
Lemma znth_of_rank l x : incr l -> In x l -> znth l (lb l x) = x.
Proof. intros I H. now apply lb_In in H. Qed.
Lemma vals_lb P x : 0 <= x < 65536 -> lb (vals P) x = cnt P 0 x.
Proof.
  intros Hx. rewrite lb_cnt by (try apply awf_vals; lia). apply cnt_ext. intros y Hy. apply amem_vals. lia.
Qed.
Lemma znth_celems k c x : 0 <= x < 65536 -> cmem c x = true -> znth (celems k c) (cnt (cmem c) 0 x) = x + 65536 * k.
Proof.
  intros Hx Hm. assert (Hin : In x (vals (cmem c))) by (apply vals_In; auto). destruct (awf_vals (cmem c)) as [I _].
  rewrite <- vals_lb by auto. pose proof (proj1 (lb_In _ _ I) Hin) as [L1 L2]. pose proof (lb_bound (vals (cmem c)) x).
  unfold celems. rewrite znth_map_add by lia. now rewrite L2.
Qed.
Definition last_is_run (r : bitmap) : Prop := exists pre k x, r = pre ++ [(k, CRun x)].
(** the uint32 start_rank does not wrap: fewer than 2^32 members, or all 2^32 of
    them with the last container run encoded *)
Definition select_ok (r : bitmap) (sr : Z) : Prop :=
  sr + zlen (elems r) < 2^32 \/ (sr + zlen (elems r) <= 2^32 /\ last_is_run r).
Lemma last_is_run_cons e t : last_is_run (e :: t) -> t = [] \/ last_is_run t.
Proof.
  intros (pre&k&x&E). destruct pre as [|e' pre]; cbn in E; inversion E; subst; [now left|right]. now exists pre, k, x.
Qed.
Lemma select_loop_spec r lo sr rank : gok cok lo r -> 0 <= lo -> 0 <= sr <= rank -> rank < 2^32 -> select_ok r sr ->
  select_loop r sr rank = if rank <? sr + zlen (elems r) then Some (znth (elems r) (rank - sr)) else None.
Proof.
  revert lo sr. induction r as [|[k c] t IH]; intros lo sr G Hlo Hsr Hr F; cbn [select_loop].
  { change (zlen (elems [])) with 0. now replace (rank <? sr + 0) with false by lia. }
  apply gok_cons in G as (K&D&T). unfold select_ok in F. rewrite elems_cons in F |- *. rewrite zlen_app, celems_zlen in *.
  pose proof (zlen_nonneg (elems t)).
  assert (CP : 0 < ccard c). { pose proof (cok_cne c D) as (x&Hx&Hm). unfold ccard. pose proof (cnt_bound (cmem c) 0 65536 ltac:(lia)).
    destruct (Z.eq_dec (cnt (cmem c) 0 65536) 0) as [Q|Q]; [|lia]. rewrite (cnt_none_inv _ 0 65536 Q x Hx) in Hm. discriminate. }
  assert (SF : select_fits c sr).
  { unfold select_fits. destruct F as [F|[F1 F2]]; [destruct c; lia|].
    destruct (last_is_run_cons _ _ F2) as [->|(pre&k'&x&->)].
    - destruct F2 as ([|? [|]]&k'&x&E); inversion E; subst. change (zlen (elems [])) with 0 in *. lia.
    - rewrite elems_app, zlen_app in *. assert (0 < zlen (elems [(k', CRun x)])).
      { cbn [elems flat_map fst snd]. rewrite app_nil_r, celems_zlen. apply gok_app in T as (_&T&_). apply gok_cons in T as (_&T&_).
        pose proof (cok_cne _ T) as (y&Hy&Hm). unfold ccard. pose proof (cnt_bound (cmem (CRun x)) 0 65536 ltac:(lia)).
        destruct (Z.eq_dec (cnt (cmem (CRun x)) 0 65536) 0) as [Q|Q]; [|lia]. rewrite (cnt_none_inv _ 0 65536 Q y Hy) in Hm. discriminate. }
      pose proof (zlen_nonneg (elems pre)). destruct c; lia. }
  pose proof (container_select_spec c sr rank D Hsr Hr SF) as S. destruct (Z.ltb_spec rank (sr + ccard c)).
  - destruct S as (x&Hx&S1&S2&S3). destruct (container_select c sr rank) as [o sr']. cbn [fst] in S1. subst o.
    replace (rank <? sr + (ccard c + zlen (elems t))) with true by lia. f_equal. rewrite lor_key by lia.
    rewrite znth_app1 by (rewrite celems_zlen; lia). rewrite <- S3. now rewrite znth_celems.
  - rewrite S. rewrite (IH (k + 1)); auto; try lia.
    + replace (sr + ccard c + zlen (elems t)) with (sr + (ccard c + zlen (elems t))) by lia. destruct (Z.ltb_spec rank (sr + (ccard c + zlen (elems t)))); auto.
      f_equal. rewrite znth_app2 by (rewrite celems_zlen; lia). rewrite celems_zlen. f_equal. lia.
    + unfold select_ok. destruct F as [F|[F1 F2]]; [left; lia|]. destruct (last_is_run_cons _ _ F2) as [->|F3]; [|right; split; auto; lia].
      left. change (zlen (elems [])) with 0 in *. lia.
Qed.
Theorem roaring_bitmap_select_spec r rank : bok r -> 0 <= rank < 2^32 -> select_ok r 0 ->
  roaring_bitmap_select r rank = if rank <? bcardinal r then Some (znth (elems r) rank) else None.
Proof.
  intros B Hr F. unfold roaring_bitmap_select. rewrite (select_loop_spec r 0) by (auto; lia). rewrite elems_zlen by auto.
  rewrite Z.add_0_l, Z.sub_0_r. reflexivity.
Qed.
Lemma ccard_pos c : cok c -> 0 < ccard c.
Proof.
  intros D. pose proof (cok_cne c D) as (x&Hx&Hm). unfold ccard. pose proof (cnt_bound (cmem c) 0 65536 ltac:(lia)).
  destruct (Z.eq_dec (cnt (cmem c) 0 65536) 0) as [Q|Q]; [|lia]. rewrite (cnt_none_inv _ 0 65536 Q x Hx) in Hm. discriminate.
Qed.
Theorem roaring_bitmap_minimum_spec r : bok r ->
  if zlen r =? 0 then roaring_bitmap_minimum r = 2^32 - 1
  else mem r (roaring_bitmap_minimum r) = true /\ forall v, mem r v = true -> roaring_bitmap_minimum r <= v.
Proof.
  intros B. unfold roaring_bitmap_minimum. destruct r as [|[k c] t]; [reflexivity|]. rewrite zlen_cons. pose proof (zlen_nonneg t).
  replace (zlen t + 1 =? 0) with false by lia. replace (0 <? zlen t + 1) with true by lia. change (rcon ((k, c) :: t) 0) with c. change (rkey ((k, c) :: t) 0) with k.
  pose proof B as G. apply gok_cons in G as (K&D&T). destruct (container_minimum_spec c D) as (M1&M2&M3). rewrite lor_key by auto. cbv iota. split.
  - rewrite Z.add_comm. rewrite mem_split by auto. now rewrite km_head.
  - intros v Hv. apply (elems_In cok 0 _ v B) in Hv; [|lia]. rewrite elems_cons in Hv. apply in_app_or in Hv as [Hv|Hv].
    + apply celems_In in Hv as [Hv1 Hv2]. specialize (M3 (v - 65536 * k) ltac:(lia) Hv2). lia.
    + destruct (elems_wf cok (k + 1) t T) as [_ I2]; [lia|]. pose proof (inb_In _ _ _ _ I2 Hv). lia.
Qed.
Theorem roaring_bitmap_maximum_spec r : bok r ->
  if zlen r =? 0 then roaring_bitmap_maximum r = 0
  else mem r (roaring_bitmap_maximum r) = true /\ forall v, mem r v = true -> v <= roaring_bitmap_maximum r.
Proof.
  intros B. unfold roaring_bitmap_maximum. destruct (snoc_cases r) as [->|(t&[k c]&E)]; [reflexivity|]. subst r. rewrite zlen_app, zlen_cons. change (zlen (@nil entry)) with 0. pose proof (zlen_nonneg t).
  replace (zlen t + (0 + 1) =? 0) with false by lia. replace (0 <? zlen t + (0 + 1)) with true by lia. replace (zlen t + (0 + 1) - 1) with (zlen t) by lia.
  rewrite rcon_mid, rkey_mid. pose proof B as G. apply gok_mid in G as (G1&_&K&D&G2&_). destruct (container_maximum_spec c D) as (M1&M2&M3). rewrite lor_key by auto. cbv iota. split.
  - rewrite Z.add_comm. rewrite mem_split by auto. rewrite km_snoc by auto. now rewrite Z.eqb_refl.
  - intros v Hv. apply (elems_In cok 0 _ v B) in Hv; [|lia]. rewrite elems_app in Hv. apply in_app_or in Hv as [Hv|Hv].
    + apply (elems_In cok 0 _ v G1) in Hv; [|lia]. apply mem_key in Hv. apply G2 in Hv. dm.
    + cbn [elems flat_map fst snd] in Hv. rewrite app_nil_r in Hv. apply celems_In in Hv as [Hv1 Hv2]. specialize (M3 (v - 65536 * k) ltac:(lia) Hv2). lia.
Qed.
Theorem roaring_bitmap_is_empty_spec r : bok r -> (roaring_bitmap_is_empty r = true <-> forall v, mem r v = false).
Proof.
  intros B. unfold roaring_bitmap_is_empty. pose proof (roaring_bitmap_minimum_spec r B) as M. destruct (Z.eqb_spec (zlen r) 0) as [E|E].
  - split; auto. intros _ v. destruct r; [reflexivity|]. rewrite zlen_cons in E. pose proof (zlen_nonneg r). lia.
  - split; [discriminate|]. intros H. destruct M as [M _]. rewrite H in M. discriminate.
Qed.

(** ** to_uint32_array and pagination *)
Lemma shiftl16 k : Z.shiftl k 16 = 65536 * k.
Proof. rewrite Z.shiftl_mul_pow2 by lia. change (2^16) with 65536. lia. Qed.
Lemma container_to_array_celems k c : cok c -> container_to_uint32_array c (Z.shiftl k 16) = celems k c.
Proof. intros D. rewrite container_to_array_spec by now apply cok_lok. now rewrite shiftl16. Qed.
Theorem roaring_bitmap_to_uint32_array_spec r lo : gok cok lo r -> roaring_bitmap_to_uint32_array r = elems r.
Proof.
  revert lo. induction r as [|[k c] t IH]; intros lo G; auto. apply gok_cons in G as (K&D&T). cbn [roaring_bitmap_to_uint32_array flat_map fst snd].
  rewrite container_to_array_celems by auto. rewrite elems_cons. f_equal. eapply IH. exact T.
Qed.
Lemma range_array_loop2 r lo offset limit ctr data fs cl : gok cok lo r -> 0 <= fs < zlen data -> zlen data - fs < limit ->
  ctr = offset - fs + zlen data -> zlen data <= cl -> fs + limit <= cl ->
  exists data' cl' rest, range_array_loop r offset limit ctr (zlen data) fs (Some (data, cl)) = (fs, Some (data', cl')) /\
    data' ++ rest = data ++ elems r /\ zlen data' <= cl' /\ fs + limit <= cl' /\ fs <= zlen data' /\ (rest = [] \/ limit <= zlen data' - fs).
Proof.
  revert lo ctr data cl. induction r as [|[k c] t IH]; intros lo ctr data cl G Hfs Hl Hc Hcl Hcl2; cbn [range_array_loop].
  { exists data, cl, []. rewrite !app_nil_r. repeat split; auto; try lia. }
  apply gok_cons in G as (K&D&T). pose proof (ccard_pos c D). rewrite container_get_cardinality_spec by auto.
  replace ((offset <=? ctr + ccard c - 1) && (ctr <? offset + limit)) with true by lia. rewrite container_to_array_celems by auto.
  set (cl' := if cl <? zlen data + ccard c then cl + ccard c else cl). 
  assert (C1 : zlen data + ccard c <= cl' /\ fs + limit <= cl') by (unfold cl'; destruct (Z.ltb_spec cl (zlen data + ccard c)); lia).
  assert (ZL : zlen (data ++ celems k c) = zlen data + ccard c) by (rewrite zlen_app, celems_zlen; auto).
  destruct (Z.leb_spec limit (zlen data + ccard c - fs)).
  - exists (data ++ celems k c), cl', (elems t). rewrite elems_cons, app_assoc. split; auto. split; auto. rewrite ZL. repeat split; try lia.
  - rewrite <- ZL. destruct (IH (k + 1) (ctr + ccard c) (data ++ celems k c) cl') as (d'&c'&rest&E&F); auto; try lia.
    exists d', c', rest. split; [exact E|]. rewrite elems_cons, app_assoc. exact F.
Qed.
Lemma zfirst_pad (A : list Z) limit n : zlen A + n >= limit -> 0 <= limit ->
  zfirst limit (A ++ repeat 0 (Z.to_nat n)) = zfirst limit (A ++ repeat 0 (Z.to_nat limit)).
Proof.
  intros H1 H2. unfold zfirst. rewrite !firstn_app. f_equal. 
  assert (F : forall m j : nat, (m <= j)%nat -> firstn m (repeat 0 j) = repeat 0 m).
  { induction m; intros [|j] Hj; cbn; auto; try lia. f_equal. apply IHm. lia. }
  unfold zlen in *. rewrite !F by lia. reflexivity.
Qed.
Lemma zdrop_app_le {A} n (a b : list A) : 0 <= n <= zlen a -> zdrop n (a ++ b) = zdrop n a ++ b.
Proof. intros. unfold zdrop. rewrite skipn_app. unfold zlen in *. replace (Z.to_nat n - length a)%nat with 0%nat by lia. reflexivity. Qed.
Lemma zfirst_app_le {A} n (a b : list A) : 0 <= n <= zlen a -> zfirst n (a ++ b) = zfirst n a.
Proof. intros. unfold zfirst. rewrite firstn_app. unfold zlen in *. replace (Z.to_nat n - length a)%nat with 0%nat by lia. cbn. apply app_nil_r. Qed.
Lemma range_array_loop1 r lo offset limit ctr : gok cok lo r -> 0 <= ctr <= offset -> 0 < limit ->
  match range_array_loop r offset limit ctr 0 0 None with
  | (fs, Some (data, cl)) => offset < ctr + zlen (elems r) /\
      zfirst limit (zdrop fs (data ++ repeat 0 (Z.to_nat (cl - zlen data)))) = zfirst limit (zdrop (offset - ctr) (elems r) ++ repeat 0 (Z.to_nat limit))
  | (_, None) => ctr + zlen (elems r) <= offset
  end.
Proof.
  revert lo ctr. induction r as [|[k c] t IH]; intros lo ctr G Hc Hl; cbn [range_array_loop].
  { change (zlen (elems [])) with 0. lia. }
  apply gok_cons in G as (K&D&T). pose proof (ccard_pos c D). rewrite container_get_cardinality_spec by auto.
  rewrite elems_cons, zlen_app, celems_zlen. pose proof (zlen_nonneg (elems t)).
  destruct (Z.leb_spec offset (ctr + ccard c - 1)); cbn [andb].
  - replace (ctr <? offset + limit) with true by lia. rewrite container_to_array_celems by auto. cbn [app]. rewrite !Z.add_0_l.
    set (cl' := if offset - ctr + limit <? ccard c then offset - ctr + limit + ccard c else offset - ctr + limit).
    assert (C1 : ccard c <= cl' /\ offset - ctr + limit <= cl') by (unfold cl'; destruct (Z.ltb_spec (offset - ctr + limit) (ccard c)); lia).
    assert (FIN : forall data' cl2 rest, data' ++ rest = celems k c ++ elems t -> zlen data' <= cl2 -> offset - ctr + limit <= cl2 -> offset - ctr <= zlen data' ->
       (rest = [] \/ limit <= zlen data' - (offset - ctr)) ->
       zfirst limit (zdrop (offset - ctr) (data' ++ repeat 0 (Z.to_nat (cl2 - zlen data')))) = zfirst limit (zdrop (offset - ctr) (celems k c ++ elems t) ++ repeat 0 (Z.to_nat limit))).
    { intros data' cl2 rest E A1 A2 A3 A4. rewrite <- E. rewrite !zdrop_app_le by lia. destruct A4 as [->|A4].
      - rewrite app_nil_r. apply zfirst_pad; try lia. rewrite zdrop_zlen by lia. lia.
      - rewrite <- app_assoc. rewrite !zfirst_app_le by (rewrite zdrop_zlen by lia; lia). reflexivity. }
    destruct (Z.leb_spec limit (ccard c - (offset - ctr))).
    + split; [lia|]. apply (FIN (celems k c) cl' (elems t)); rewrite ?celems_zlen; auto; lia.
    + destruct (range_array_loop2 t (k + 1) offset limit (ctr + ccard c) (celems k c) (offset - ctr) cl') as (d'&c'&rest&E&F1&F2&F3&F4&F5); auto; rewrite ?celems_zlen; try lia.
      rewrite celems_zlen in E. rewrite E. split; [lia|]. apply (FIN d' c' rest); auto.
  - cbn [fst snd]. replace (limit <=? 0 - 0) with false by lia. specialize (IH (k + 1) (ctr + ccard c) T ltac:(lia) Hl).
    destruct (range_array_loop t offset limit (ctr + ccard c) 0 0 None) as [fs [[data cl]|]]; [|lia]. destruct IH as [I1 I2]. split; [lia|].
    rewrite I2. do 2 f_equal. unfold zdrop. rewrite skipn_app. rewrite (skipn_all2 (celems k c)) by (pose proof (celems_zlen k c); unfold zlen in *; lia). cbn [app].
    f_equal. pose proof (celems_zlen k c). unfold zlen in *. lia.
Qed.
Theorem roaring_bitmap_range_uint32_array_spec r offset limit : bok r -> 0 <= offset -> 0 < limit ->
  roaring_bitmap_range_uint32_array r offset limit =
    if offset <? bcardinal r then Some (zfirst limit (zdrop offset (elems r) ++ repeat 0 (Z.to_nat limit))) else None.
Proof.
  intros B Ho Hl. unfold roaring_bitmap_range_uint32_array. pose proof (range_array_loop1 r 0 offset limit 0 B ltac:(lia) Hl) as R.
  rewrite elems_zlen in R by auto. destruct (range_array_loop r offset limit 0 0 0 None) as [fs [[data cl]|]].
  - destruct R as [R1 R2]. replace (offset <? bcardinal r) with true by lia. rewrite R2. now rewrite Z.sub_0_r.
  - now replace (offset <? bcardinal r) with false by lia.
Qed.
(** a page that lies inside the sequence is exactly the slice *)
Theorem range_uint32_array_slice r offset limit : bok r -> 0 <= offset -> 0 < limit -> offset + limit <= bcardinal r ->
  roaring_bitmap_range_uint32_array r offset limit = Some (zfirst limit (zdrop offset (roaring_bitmap_to_uint32_array r))).
Proof.
  intros B Ho Hl H. rewrite roaring_bitmap_range_uint32_array_spec by auto. replace (offset <? bcardinal r) with true by lia.
  rewrite (roaring_bitmap_to_uint32_array_spec r 0 B). rewrite zfirst_app_le; auto. rewrite zdrop_zlen; rewrite elems_zlen by auto; lia.
Qed.

(** ** roaring_iterate *)
Lemma iter_seq_app {S} (f : S -> Z -> S * bool) l1 l2 s : iter_seq f (l1 ++ l2) s =
  let '(s', b) := iter_seq f l1 s in if b then iter_seq f l2 s' else (s', false).
Proof.
  revert s. induction l1 as [|v l1 IH]; intros s; cbn [app iter_seq]; auto. destruct (f s v) as [s' []]; auto.
Qed.
Lemma container_iterate_celems k c : cok c -> container_iterate_seq c (Z.shiftl k 16) = celems k c.
Proof.
  intros D. rewrite <- container_to_array_celems by auto. destruct c as [a|b|x]; cbn [container_iterate_seq container_to_uint32_array].
  - unfold array_container_to_uint32_array. apply map_ext. intros. lia.
  - apply bitset_iterate_seq_eq. apply D.
  - reflexivity.
Qed.
Theorem roaring_iterate_spec {S} (f : S -> Z -> S * bool) r lo s : gok cok lo r -> roaring_iterate f r s = iter_seq f (elems r) s.
Proof.
  revert lo s. induction r as [|[k c] t IH]; intros lo s G; auto. apply gok_cons in G as (K&D&T). cbn [roaring_iterate].
  rewrite container_iterate_celems by auto. rewrite elems_cons, iter_seq_app. destruct (iter_seq f (celems k c) s) as [s' []]; auto. eauto.
Qed.
Theorem roaring_iterate64_spec {S} (f : S -> Z -> S * bool) r h s : bok r -> roaring_iterate64 f r h s = iter_seq f (map (Z.lor h) (elems r)) s.
Proof.
  intros B. unfold roaring_iterate64. rewrite (roaring_iterate_spec _ r 0 s B). generalize (elems r). intros l. revert s.
  induction l as [|v l IH]; intros s; cbn [iter_seq map]; auto. destruct (f s (Z.lor h v)) as [s' []]; auto.
Qed.

(** ** validation *)
Lemma keys_increasing_spec p ks : keys_increasing p ks = true <-> incr (p :: ks).
Proof.
  revert p. induction ks as [|k t IH]; intros p; cbn [keys_increasing].
  - split; auto. intros _. cbn. split; auto.
  - destruct (Z.leb_spec k p).
    + split; [discriminate|]. intros I. pose proof (incr_head p (k :: t) k I (or_introl eq_refl)). lia.
    + rewrite IH. rewrite (incr_cons p (k :: t)). split; [intros I|intros [_ I]; auto]. split; auto. constructor; auto.
      apply Forall_forall. intros y Hy. pose proof (incr_head _ _ _ I Hy). lia.
Qed.
(** the fields of the structure hold values of their C types *)
Definition typed (r : bitmap) : Prop := inb 0 65536 (rkeys r) /\ Forall (fun p => ctyped (snd p)) r.
Theorem roaring_bitmap_internal_validate_spec r : typed r -> (roaring_bitmap_internal_validate r = true <-> bok r).
Proof.
  intros [T1 T2]. unfold roaring_bitmap_internal_validate, bok, gok.
  assert (F : forallb (fun p => container_internal_validate (snd p)) r = true <-> Forall (fun p : entry => cok (snd p)) r).
  { rewrite forallb_forall, Forall_forall in *. split; intros H p Hp; specialize (H p Hp); specialize (T2 p Hp); now apply container_validate_spec in H || apply container_validate_spec. }
  destruct (rkeys r) as [|k t] eqn:E.
  - destruct r; [|discriminate]. split; auto. intros _. repeat split; constructor.
  - rewrite <- F. pose proof (keys_increasing_spec k t) as K. destruct (keys_increasing k t); cbn [negb].
    + split; [intros; split; [now apply K|auto]|tauto].
    + split; [discriminate|]. intros (I&_). apply K in I. discriminate.
Qed.
Lemma bok_typed r : bok r -> typed r.
Proof. intros (A&B&D). split; auto. eapply Forall_impl; [|exact D]. intros. now apply cok_ctyped. Qed.

(** ** re-encodings *)
Lemma remove_run_spec c : cok c -> rep (remove_run c) (cmem c).
Proof.
  destruct c as [a|b|x]; intros D; cbn [remove_run]; [split; auto|split; auto|]. destruct D as [D1 D2].
  apply convert_to_boa_spec; auto. now rewrite run_cardinality_spec.
Qed.
Theorem roaring_bitmap_run_optimize_spec r : bok r -> bspec (fst (roaring_bitmap_run_optimize r)) (mem r) /\
  (snd (roaring_bitmap_run_optimize r) = true <-> exists p, In p (fst (roaring_bitmap_run_optimize r)) /\ is_run (snd p) = true).
Proof.
  intros B. split.
  - assert (R : rspec (fst (roaring_bitmap_run_optimize r)) (km r)).
    { apply (bmrep_map cok cok); auto. intros c D. destruct (convert_run_optimize_spec c D); auto. }
    split; [apply R|]. intros v. destruct (Z_lt_dec v 0); [rewrite !mem_oob by (auto; try apply R; lia); auto|].
    destruct (Z_le_dec (2^32) v); [rewrite !mem_oob by (auto; try apply R; lia); auto|]. rewrite (rspec_mem _ _ v R) by lia. reflexivity.
  - unfold roaring_bitmap_run_optimize. cbn [fst snd]. apply existsb_exists.
Qed.
Lemma remove_run_not_run c : is_run (remove_run c) = false.
Proof. destruct c as [a|b|x]; auto. cbn [remove_run]. unfold convert_to_bitset_or_array_container. destruct (_ <=? _); reflexivity. Qed.
Theorem roaring_bitmap_remove_run_compression_spec r : bok r -> bspec (fst (roaring_bitmap_remove_run_compression r)) (mem r) /\
  Forall (fun p => is_run (snd p) = false) (fst (roaring_bitmap_remove_run_compression r)) /\
  (snd (roaring_bitmap_remove_run_compression r) = true <-> exists p, In p r /\ is_run (snd p) = true).
Proof.
  intros B. split; [|split].
  - assert (R : rspec (fst (roaring_bitmap_remove_run_compression r)) (km r)).
    { apply (bmrep_map cok cok); auto. intros c D. destruct (remove_run_spec c D); auto. }
    split; [apply R|]. intros v. destruct (Z_lt_dec v 0); [rewrite !mem_oob by (auto; try apply R; lia); auto|].
    destruct (Z_le_dec (2^32) v); [rewrite !mem_oob by (auto; try apply R; lia); auto|]. rewrite (rspec_mem _ _ v R) by lia. reflexivity.
  - cbn [fst roaring_bitmap_remove_run_compression]. apply Forall_forall. intros p Hp. apply in_map_iff in Hp as (q&<-&_). apply remove_run_not_run.
  - cbn [snd roaring_bitmap_remove_run_compression]. apply existsb_exists.
Qed.
