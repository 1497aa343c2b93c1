(** SimdQ: the statements about bitset and run containers in memory at every CPU level, in terms of bits and numbers. *)
From Coq Require Import Sorting.Sorted.
From Verif Require Import Simd Base BitUtil SimdB SimdR BitsetC Spec Obs DerivedK.
Local Opaque zr.
(** a bitset container's words stand in 1024 cells from [p] *)
Definition in_memory (M : memory) (p : Z) : Prop := 0 <= p /\ p + 1024 <= zlen M /\ Forall (fun w => 0 <= w < 2 ^ 64) (win M p 1024).
(** bit [x] of the bitset container at [p] *)
Definition mbit (M : memory) (p x : Z) : bool := Z.testbit (nth (Z.to_nat (p + x / 64)) M 0) (x mod 64).
Definition boolop (o : bop) (a b : bool) : bool := match o with OR => a || b | AND => a && b | XOR => xorb a b | ANDNOT => a && negb b end.
(** the destination is one of the operands or shares no cell with it *)
Definition same_or_apart (out p : Z) : Prop := out = p \/ out + 1024 <= p \/ p + 1024 <= out.
(** after the operation: every bit of [out]; every cell elsewhere as before *)
Definition op_done (M M' : memory) (o : bop) (p q out : Z) : Prop :=
  length M' = length M /\ in_memory M' out /\
  (forall x, 0 <= x < 65536 -> mbit M' out x = boolop o (mbit M p x) (mbit M q x)) /\
  (forall i, (i < Z.to_nat out \/ Z.to_nat out + Z.to_nat 1024 <= i)%nat -> nth i M' 0 = nth i M 0).
Definition op_how_many (M : memory) (o : bop) (p q : Z) : Z := how_many (fun x => boolop o (mbit M p x) (mbit M q x)).

Lemma win_words M p : in_memory M p -> bws (win M p 1024).
Proof. intros (H1 & H2 & H3). split; [exact H3|]. apply win_zlen; lia. Qed.
Lemma mbit_bget M p x : 0 <= p -> 0 <= x < 65536 -> mbit M p x = bget (win M p 1024) x.
Proof. intros Hp Hx. unfold mbit, bget. rewrite znth_win; [reflexivity|lia|]. split; [apply Z.div_pos; lia|]. apply Z.div_lt_upper_bound; lia. Qed.
Lemma opsym o : wordop (opsymbol o) (boolop o).
Proof. destruct o; [exact wordop_or|exact wordop_and|exact wordop_xor|exact wordop_andn]. Qed.
Lemma fold_zsum l : forall a, fold_left (fun s i => s + hamming i) l a = a + zsum (map hamming l).
Proof. induction l as [|x l IH]; intros a; cbn [fold_left map zsum]; [lia|]. rewrite IH. lia. Qed.
Lemma fold_map {A B C} (f : C -> B -> C) (g : A -> B) l : forall a, fold_left f (map g l) a = fold_left (fun s i => f s (g i)) l a.
Proof. induction l as [|x l IH]; intros a; cbn [fold_left map]; auto. Qed.
Lemma map_znth ws : forall u, map (znth (u ++ ws)) (zr (zlen u) (zlen u + zlen ws)) = ws.
Proof.
  induction ws as [|x ws IH]; intros u. { rewrite zr_nil by (change (zlen (@nil Z)) with 0; lia). reflexivity. }
  rewrite zlen_cons. pose proof (zlen_nonneg ws). rewrite zr_cons by lia. cbn [map]. f_equal.
  - unfold znth, zlen. rewrite Nat2Z.id, app_nth2 by lia. rewrite Nat.sub_diag. reflexivity.
  - specialize (IH (u ++ [x])). rewrite <- app_assoc in IH. cbn [app] in IH. rewrite zlen_app in IH. change (zlen [x]) with 1 in IH.
    replace (zlen u + (zlen ws + 1)) with (zlen u + 1 + zlen ws) by lia. exact IH.
Qed.
Lemma pop_cnt ws : pop ws = cnt (bget ws) 0 (64 * zlen ws).
Proof.
  pose proof (fold_hamming ws 0 (zlen ws) 0 ltac:(pose proof (zlen_nonneg ws); lia)) as H. rewrite Z.mul_0_r, Z.add_0_l in H. rewrite <- H.
  rewrite <- (fold_map (fun s i => s + hamming i) (znth ws)). pose proof (map_znth ws []) as E. cbn [app] in E. change (zlen (@nil Z)) with 0 in E. rewrite Z.add_0_l in E. rewrite E, fold_zsum. unfold pop. lia.
Qed.
Lemma pop_how_many M p : in_memory M p -> pop (win M p 1024) = how_many (mbit M p).
Proof.
  intros H. rewrite pop_cnt, how_many_cnt. rewrite win_zlen by (destruct H as (A & B & _); lia). change (64 * 1024) with 65536.
  apply cnt_ext. intros x Hx. symmetry. apply mbit_bget; [apply H|exact Hx].
Qed.
Lemma ready M p q out : in_memory M p -> in_memory M q -> 0 <= out -> out + 1024 <= zlen M -> same_or_apart out p -> same_or_apart out q -> op_ready M p q out.
Proof. intros (A1 & A2 & _) (B1 & B2 & _) C1 C2 D E. unfold op_ready. split; [exact A1|]. split; [exact B1|]. split; [exact C1|]. split; [exact A2|]. split; [exact B2|]. split; [exact C2|]. split; [exact D|exact E]. Qed.

Lemma zlen_length (a b : list Z) : zlen a = zlen b -> length a = length b. Proof. unfold zlen. lia. Qed.
Lemma result_done M o p q out M' : in_memory M p -> in_memory M q -> 0 <= out -> out + 1024 <= zlen M -> op_result M o p q out M' -> op_done M M' o p q out.
Proof.
  intros Hp Hq Ho Bo [[L S1] W]. pose proof (win_words M p Hp) as Wp. pose proof (win_words M q Hq) as Wq. pose proof (opsym o) as [WO TB].
  assert (BW : bws (win M' out 1024)). { rewrite W. destruct Wp as [Wp Lp], Wq as [Wq Lq]. split; [now apply wfw_map2|]. rewrite zlen_map2; lia. }
  split; [now apply zlen_length|]. split; [|split].
  - split; [exact Ho|]. split; [lia|]. apply BW.
  - intros x Hx. rewrite !mbit_bget by (try exact Hx; try exact Ho; first [apply Hp|apply Hq]). rewrite W. now apply bget_map2.
  - intros i Hi. specialize (S1 (Z.of_nat i) ltac:(lia) ltac:(lia)). unfold znth in S1. rewrite !Nat2Z.id in S1. exact S1.
Qed.
Lemma count_how_many M o p q : in_memory M p -> in_memory M q -> op_count M o p q = op_how_many M o p q.
Proof.
  intros Hp Hq. unfold op_count, op_how_many. rewrite pop_cnt, how_many_cnt. pose proof (win_words M p Hp) as [Wp Lp]. pose proof (win_words M q Hq) as [Wq Lq]. pose proof (opsym o) as [WO TB].
  rewrite zlen_map2 by lia. rewrite Lp. change (64 * 1024) with 65536. apply cnt_ext. intros x Hx.
  rewrite !mbit_bget by (try exact Hx; first [apply Hp|apply Hq]). apply bget_map2; auto; split; auto.
Qed.
Lemma q_op c o M p q out : in_memory M p -> in_memory M q -> 0 <= out -> out + 1024 <= zlen M -> same_or_apart out p -> same_or_apart out q ->
  exists M', container_op_mem c o M p q out = Some (M', op_how_many M o p q) /\ op_done M M' o p q out.
Proof.
  intros Hp Hq Ho Bo A1 A2. destruct (container_op_mem_ok c o M p q out (ready _ _ _ _ Hp Hq Ho Bo A1 A2)) as (M' & E & R).
  exists M'. rewrite count_how_many in E by auto. split; [exact E|]. now apply result_done.
Qed.
Lemma q_nocard c o M p q out : in_memory M p -> in_memory M q -> 0 <= out -> out + 1024 <= zlen M -> same_or_apart out p -> same_or_apart out q ->
  exists M', container_op_nocard_mem c o M p q out = Some (M', -1) /\ op_done M M' o p q out.
Proof.
  intros Hp Hq Ho Bo A1 A2. destruct (container_op_nocard_mem_ok c o M p q out (ready _ _ _ _ Hp Hq Ho Bo A1 A2)) as (M' & E & R).
  exists M'. split; [exact E|]. now apply result_done.
Qed.
Lemma q_justcard c o M p q : in_memory M p -> in_memory M q -> container_op_justcard_mem c o M p q = Some (op_how_many M o p q).
Proof. intros Hp Hq. rewrite <- count_how_many by auto. apply container_op_justcard_mem_ok; first [apply Hp|apply Hq]. Qed.
Lemma q_cardinality c M p : in_memory M p -> container_cardinality_mem c M p = Some (how_many (mbit M p)).
Proof. intros Hp. rewrite <- pop_how_many by auto. apply container_cardinality_mem_ok; apply Hp. Qed.
(** the population count of any number of 256-bit or 512-bit blocks *)
Definition mem_bits (M : memory) (p n : Z) : Z := Z.of_nat (length (filter (mbit M p) (map Z.of_nat (seq 0 (Z.to_nat (64 * n)))))).
Lemma mbit_bget_n M p n x : 0 <= p -> 0 <= x < 64 * n -> mbit M p x = bget (win M p n) x.
Proof. intros Hp Hx. unfold mbit, bget. rewrite znth_win; [reflexivity|lia|]. split; [apply Z.div_pos; lia|]. apply Z.div_lt_upper_bound; lia. Qed.
Lemma zr_seq0 n : 0 <= n -> zr 0 n = map Z.of_nat (seq 0 (Z.to_nat n)).
Proof. intros Hn. Local Transparent zr. unfold zr. rewrite zrange_seq. rewrite Z.sub_0_r. apply map_ext. intros a. lia. Qed.
Local Opaque zr.
Lemma pop_mem_bits M p n : 0 <= p -> 0 <= n -> p + n <= zlen M -> pop (win M p n) = mem_bits M p n.
Proof.
  intros Hp Hn Hb. rewrite pop_cnt. rewrite win_zlen by lia. unfold mem_bits. rewrite <- zr_seq0 by lia. rewrite (cnt_ext _ (mbit M p)); [reflexivity|].
  intros x Hx. symmetry. now apply mbit_bget_n.
Qed.
Lemma q_popcount M p size : 0 <= p -> 0 <= size -> zlen M < 2 ^ 58 ->
  (p + 4 * size <= zlen M -> harley_seal (reg1 4 p) M size = Some (M, mem_bits M p (4 * size))) /\
  (p + 8 * size <= zlen M -> vpopcount (reg1 8 p) M size = Some (M, mem_bits M p (8 * size))).
Proof.
  intros Hp Hs HM. split; intros Hb.
  - destruct (harley_seal_ok (reg1 4 p) size (fun _ M' => M' = M) (V1 M 4 p) M) as (M' & E & W).
    + apply (supplies1 M 4 p size); lia.
    + lia.
    + reflexivity.
    + rewrite popk_V1 by lia. pose proof (pop_bound (win M p (4 * size))) as P. rewrite win_zlen in P by lia. lia.
    + rewrite E, W, popk_V1, pop_mem_bits by lia. reflexivity.
  - destruct (vpopcount_ok (reg1 8 p) size (fun _ M' => M' = M) (V1 M 8 p) M) as (M' & E & W).
    + apply (supplies1 M 8 p size); lia.
    + lia.
    + reflexivity.
    + rewrite popk_V1 by lia. pose proof (pop_bound (win M p (8 * size))) as P. rewrite win_zlen in P by lia. lia.
    + rewrite E, W, popk_V1, pop_mem_bits by lia. reflexivity.
Qed.

(** ** Comparison *)
(** the cardinality field of the container at [p]: unknown or right *)
Definition field_ok (M : memory) (p c : Z) : Prop := c = -1 \/ c = how_many (mbit M p).
Lemma win_ext M p q n : 0 <= p -> 0 <= q -> 0 <= n -> p + n <= zlen M -> q + n <= zlen M ->
  (win M p n = win M q n <-> forall i, 0 <= i < n -> znth M (p + i) = znth M (q + i)).
Proof.
  intros Hp Hq Hn Bp Bq. split.
  - intros E i Hi. rewrite <- !(znth_win M _ n) by lia. now rewrite E.
  - intros H. assert (LP : zlen (win M p n) = n) by (apply win_zlen; lia). assert (LQ : zlen (win M q n) = n) by (apply win_zlen; lia).
    apply (nth_ext _ _ 0 0). { apply zlen_length. lia. } intros k Hk. unfold zlen in LP. specialize (H (Z.of_nat k) ltac:(lia)).
    rewrite <- !(znth_win M _ n) in H by lia. unfold znth in H. now rewrite !Nat2Z.id in H.
Qed.
Lemma q_bits M p q : in_memory M p -> in_memory M q -> (win M p 1024 = win M q 1024 <-> forall x, 0 <= x < 65536 -> mbit M p x = mbit M q x).
Proof.
  intros Hp Hq. split.
  - intros E x Hx. rewrite !mbit_bget by (try exact Hx; first [apply Hp|apply Hq]). now rewrite E.
  - intros H. apply win_ext; try (first [apply Hp|apply Hq|lia]). intros i Hi.
    rewrite <- !(znth_win M _ 1024) by (first [lia|apply Hp|apply Hq]). pose proof (win_words M p Hp) as [Wp _]. pose proof (win_words M q Hq) as [Wq _].
    apply isw_ext; [now apply wfw_znth|now apply wfw_znth|]. intros j Hj. specialize (H (64 * i + j) ltac:(lia)).
    rewrite !mbit_bget in H by (first [lia|apply Hp|apply Hq]). unfold bget in H.
    replace ((64 * i + j) / 64) with i in H by (apply (Z.div_unique _ _ _ j); lia). replace ((64 * i + j) mod 64) with j in H by (apply (Z.mod_unique _ _ i j); lia). exact H.
Qed.
Lemma win_Forall (P : Z -> Prop) M p n : Forall P M -> Forall P (win M p n).
Proof. intros H. apply Forall_forall. intros x Hx. unfold win in Hx. rewrite Forall_forall in H. apply H. rewrite <- (firstn_skipn (Z.to_nat p) M). apply in_or_app. right. rewrite <- (firstn_skipn (Z.to_nat n) (skipn (Z.to_nat p) M)). apply in_or_app. now left. Qed.
Lemma q_equals c M p c1 q c2 : Forall (fun w => 0 <= w < 2 ^ 64) M -> 0 <= p -> p + 1024 <= zlen M -> 0 <= q -> q + 1024 <= zlen M -> field_ok M p c1 -> field_ok M q c2 ->
  exists r, bitset_equals_mem c M p c1 q c2 = Some r /\ (r = true <-> forall x, 0 <= x < 65536 -> mbit M p x = mbit M q x).
Proof.
  intros HW Hp Bp Hq Bq C1 C2. assert (Ip : in_memory M p) by (split; [exact Hp|split; [exact Bp|]]; now apply win_Forall).
  assert (Iq : in_memory M q) by (split; [exact Hq|split; [exact Bq|]]; now apply win_Forall).
  destruct (bitset_equals_mem_ok c M p c1 q c2 HW Hp Hq Bp Bq) as (r & E & R).
  - destruct C1 as [->| ->]; [now left|right; symmetry; now apply pop_how_many].
  - destruct C2 as [->| ->]; [now left|right; symmetry; now apply pop_how_many].
  - exists r. split; [exact E|]. rewrite R. now apply q_bits.
Qed.
Lemma q_memequals c M s1 s2 n : Forall (fun b => 0 <= b < 256) M -> 0 <= s1 -> 0 <= s2 -> 0 <= n -> s1 + n <= zlen M -> s2 + n <= zlen M ->
  exists r, memequals c M s1 s2 n = Some r /\ (r = true <-> forall i, 0 <= i < n -> nth (Z.to_nat (s1 + i)) M 0 = nth (Z.to_nat (s2 + i)) M 0).
Proof.
  intros HF H1 H2 Hn B1 B2. destruct (memequals_ok c M s1 s2 n HF H1 H2 Hn B1 B2) as (r & E & R). exists r. split; [exact E|]. rewrite R. now apply win_ext.
Qed.

(** ** Runs *)
(** runs in increasing order, not overlapping, of 16-bit values *)
Fixpoint runs_from (lo : Z) (rs : list (Z * Z)) : Prop :=
  match rs with [] => True | (v, l) :: rs' => lo <= v /\ 0 <= l /\ v + l < 65536 /\ runs_from (v + l + 1) rs' end.
Definition in_runs (rs : list (Z * Z)) (x : Z) : Prop := exists v l, In (v, l) rs /\ v <= x <= v + l.
Definition run_values (rs : list (Z * Z)) : list Z := flat_map (fun r => zr (fst r) (fst r + snd r + 1)) rs.
Lemma runs_16 rs : forall lo, 0 <= lo -> runs_from lo rs -> Forall run16 rs.
Proof. induction rs as [|[v l] rs IH]; intros lo Hlo H; constructor; destruct H as (A & B & C & D). - unfold run16. cbn [fst snd]. lia. - apply (IH (v + l + 1)); auto. lia. Qed.
Lemma run_values_In rs x : In x (run_values rs) <-> in_runs rs x.
Proof.
  unfold run_values, in_runs. rewrite in_flat_map. split.
  - intros ([v l] & HI & Hx). cbn [fst snd] in Hx. apply zr_In in Hx. exists v, l. split; [exact HI|lia].
  - intros (v & l & HI & Hx). exists (v, l). split; [exact HI|]. cbn [fst snd]. apply zr_In. lia.
Qed.
Lemma run_values_incr rs : forall lo, runs_from lo rs -> incr (run_values rs) /\ inb lo 65536 (run_values rs).
Proof.
  induction rs as [|[v l] rs IH]; intros lo H; [split; [exact Logic.I|apply Forall_nil]|].
  destruct H as (A & B & C & D). destruct (IH _ D) as [I1 I2]. change (run_values ((v, l) :: rs)) with (zr v (v + l + 1) ++ run_values rs). split.
  - apply incr_SS. assert (S1 : StronglySorted Z.lt (zr v (v + l + 1))) by apply incr_SS, zr_incr. assert (S2 : StronglySorted Z.lt (run_values rs)) by (apply incr_SS, I1).
    assert (LT : forall x y, In x (zr v (v + l + 1)) -> In y (run_values rs) -> x < y).
    { intros x y Hx Hy. apply zr_In in Hx. apply (inb_In _ _ _ _ I2) in Hy. lia. }
    revert LT. induction S1 as [|a m S1 IHm F]; intros LT; cbn [app]; [exact S2|]. constructor.
    + apply IHm. intros x y Hx Hy. apply LT; [now right|exact Hy].
    + apply Forall_app. split; [exact F|]. apply Forall_forall. intros y Hy. apply LT; [now left|exact Hy].
  - apply Forall_forall. intros x Hx. apply in_app_or in Hx. destruct Hx as [Hx|Hx]; [apply zr_In in Hx; lia|]. apply (inb_In _ _ _ _ I2) in Hx. lia.
Qed.
Lemma run_values_len rs : Forall run16 rs -> zlen (run_values rs) = zlen rs + lens rs.
Proof.
  unfold run_values, lens. induction 1 as [|[v l] rs [_ H] _ IH]; [reflexivity|]. cbn [flat_map map zsum fst snd] in *. rewrite zlen_app, zlen_cons, IH. rewrite zr_zlen by lia. lia.
Qed.
Lemma run_values_numbers base rs : Forall run16 rs -> run_numbers base rs = map (fun x => (base + x) mod 2 ^ 32) (run_values rs).
Proof.
  unfold run_values, run_numbers. induction 1 as [|[v l] rs [_ H] _ IH]; [reflexivity|]. cbn [flat_map fst snd] in *. rewrite map_app, IH. f_equal.
  replace (zr v (v + l + 1)) with (map (fun x => v + x) (zr 0 (l + 1))).
  - rewrite map_map. apply map_ext. intros a. f_equal. lia.
  - apply incr_ext; [|apply zr_incr|].
    + rewrite zr_map_add. apply zr_incr.
    + intros x. rewrite in_map_iff, zr_In. split; [intros (y & <- & Hy); apply zr_In in Hy; lia|]. intros Hx. exists (x - v). split; [lia|]. apply zr_In. lia.
Qed.
Lemma values_unique rs L : runs_from 0 rs -> sorted_with L (in_runs rs) -> L = run_values rs.
Proof.
  intros HR [S1 S2]. destruct (run_values_incr rs 0 HR) as [I1 _]. apply incr_ext; [apply incr_SS, S1|exact I1|]. intros x. rewrite S2, run_values_In. reflexivity.
Qed.
Lemma q_run_cardinality c rs L : runs_from 0 rs -> sorted_with L (in_runs rs) -> run_cardinality_cpu c rs = Some (zlen L).
Proof.
  intros HR HL. rewrite (values_unique rs L HR HL). destruct (run_values_incr rs 0 HR) as [I1 I2]. pose proof (incr_inb_len 0 65536 _ I1 I2 ltac:(lia)) as B.
  pose proof (runs_16 rs 0 ltac:(lia) HR) as F. rewrite run_values_len in * by exact F. apply run_cardinality_cpu_ok; [exact F|lia].
Qed.
Lemma q_run_numbers avx2 M rs L out base : runs_from 0 rs -> sorted_with L (in_runs rs) -> 0 <= out -> out + zlen L <= zlen M ->
  exists M', run_to_uint32_mem avx2 M rs out base = Some (M', zlen L) /\ length M' = length M /\
    win M' out (zlen L) = map (fun x => (base + x) mod 2 ^ 32) L /\
    forall i, 0 <= i -> ~ out <= i < out + zlen L -> znth M' i = znth M i.
Proof.
  intros HR HL Ho Hb. rewrite (values_unique rs L HR HL) in *. pose proof (runs_16 rs 0 ltac:(lia) HR) as F. rewrite run_values_len in * by exact F.
  destruct (run_to_uint32_mem_ok avx2 M rs out base F Ho Hb) as (M' & E & ([L1 S1] & W)). rewrite run_numbers_len in * by exact F. exists M'. split; [exact E|]. split; [now apply zlen_length|].
  split; [|exact S1]. rewrite W. now apply run_values_numbers.
Qed.
