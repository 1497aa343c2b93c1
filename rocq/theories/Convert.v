(** Convert: the container sum type and src/containers/convert.c. *)
From Coq Require Import ZArith List Bool Lia Sorted Btauto.
From Verif Require Import Base ArrayUtil BitUtil BitsetC ArrayC RunC RunD.
Import ListNotations.
Open Scope Z_scope.
Local Opaque zr.

(** A container together with its type code (containers.h:32-36: BITSET 1, ARRAY 2,
    RUN 3).  SHARED_CONTAINER_TYPE wrappers are transparent here (every function
    below unwraps them first); they are modelled in Cow.v. *)
Inductive container :=
| CArr (a : list Z)
| CBit (b : bset)
| CRun (r : list run).

(** ** Meaning and representation invariants (specification side) *)
Definition cmem (c : container) : Z -> bool :=
  match c with CArr a => amem a | CBit b => bget (b_words b) | CRun r => rmem r end.
Definition cwf (c : container) : Prop :=
  match c with CArr a => awf a | CBit b => bwf b | CRun r => rwf r end.
(** the invariant every container stored in a bitmap satisfies *)
Definition cok (c : container) : Prop :=
  match c with
  | CArr a => awf a /\ 1 <= zlen a <= 4096
  | CBit b => bwf b /\ 4096 < b_card b
  | CRun r => rwf r /\ r <> []
  end.
(** number of elements *)
Definition ccard (c : container) : Z := cnt (cmem c) 0 65536.
(** the container c is valid and denotes P *)
Definition rep (c : container) (P : Z -> bool) : Prop := cok c /\ forall x, 0 <= x < 65536 -> cmem c x = P x.
(** the same, but the container may be empty or of the wrong size class *)
Definition wrep (c : container) (P : Z -> bool) : Prop := cwf c /\ forall x, 0 <= x < 65536 -> cmem c x = P x.
(** the elements of P in order *)
Definition vals (P : Z -> bool) : list Z := filter P (zr 0 65536).

(** ** Model *)
(** convert.c:22-27 bitset_container_from_array *)
Definition bitset_container_from_array (a : list Z) : bset := fold_left bitset_container_set a bitset_container_create.
(** convert.c:29-38 bitset_container_from_run *)
Definition set_runs (ws : list Z) (r : list run) : list Z :=
  fold_left (fun ws x => bitset_set_lenrange ws (fst x) (snd x)) r ws.
Definition bitset_container_from_run (r : list run) : bset :=
  (run_container_cardinality r, set_runs (b_words bitset_container_create) r).
(** convert.c:40-53 array_container_from_run *)
Definition array_container_from_run (r : list run) : list Z :=
  flat_map (fun x => map u16 (zr (fst x) (fst x + snd x + 1))) r.
(** convert.c:56-81 array_container_from_bitset (scalar branch).  The C code writes
    the extracted values and sets the cardinality field to bits->cardinality; the
    list below has that length when the cardinality field is right. *)
Definition array_container_from_bitset (b : bset) : list Z := bitset_extract_setbits (b_words b) 0.
(** convert.c:83-88 add_run *)
Definition add_run (rc : list run) (s e : Z) : list run := rc ++ [(u16 s, u16 (e - s))].
(** convert.c:90-110 run_container_from_array; the loop state is (run_start, prev) *)
Fixpoint run_from_array_loop (a : list Z) (answer : list run) (run_start prev : Z) : list run * Z * Z :=
  match a with
  | [] => (answer, run_start, prev)
  | cur :: a' =>
    if cur =? prev + 1 then run_from_array_loop a' answer run_start cur
    else run_from_array_loop a' (if run_start =? -1 then answer else add_run answer run_start prev) cur cur
  end.
Definition run_container_from_array (a : list Z) : list run :=
  if zlen a =? 0 then [] else
    let '(answer, run_start, prev) := run_from_array_loop a [] (-1) (-2) in add_run answer run_start prev.
(** convert.c:118-147 convert_to_bitset_or_array_container; run_end is a uint16_t *)
Definition run_values16 (x : run) : list Z := let run_end := u16 (fst x + snd x) in zr (fst x) run_end ++ [run_end].
Definition convert_to_bitset_or_array_container (r : list run) (card : Z) : container :=
  if card <=? 4096 then
    CArr (flat_map run_values16 r)
  else CBit (card, set_runs (b_words bitset_container_create) r).
(** serialized sizes: run.h:448-451, array.h:165-167, bitset.h:418-420 *)
Definition run_container_serialized_size_in_bytes (n : Z) : Z := 2 + 4 * n.
Definition array_container_serialized_size_in_bytes (card : Z) : Z := card * 2 + 2.
Definition bitset_container_serialized_size_in_bytes : Z := 1024 * 8.
(** convert.c:154-200 convert_run_to_efficient_container *)
Definition convert_run_to_efficient_container (r : list run) : container :=
  let size_as_run := run_container_serialized_size_in_bytes (zlen r) in
  let card := run_container_cardinality r in
  let size_as_array := array_container_serialized_size_in_bytes card in
  let min_size_non_run := if bitset_container_serialized_size_in_bytes <? size_as_array
                          then bitset_container_serialized_size_in_bytes else size_as_array in
  if size_as_run <=? min_size_non_run then CRun r
  else if card <=? 4096 then CArr (array_container_from_run r)
  else CBit (card, fold_left (fun ws x => bitset_set_range ws (fst x) (fst x + snd x + 1)) r (b_words bitset_container_create)).
(** convert.c:262-317: the scan of a bitset for runs inside convert_run_optimize *)
Fixpoint skip_zero (fuel : nat) (ws : list Z) (ctr cur : Z) : Z * Z :=
  match fuel with
  | O => (ctr, cur)
  | S f => if (cur =? 0) && (ctr <? 1023) then skip_zero f ws (ctr + 1) (znth ws (ctr + 1)) else (ctr, cur)
  end.
Fixpoint skip_ones (fuel : nat) (ws : list Z) (ctr cur : Z) : Z * Z :=
  match fuel with
  | O => (ctr, cur)
  | S f => if (cur =? ones64) && (ctr <? 1023) then skip_ones f ws (ctr + 1) (znth ws (ctr + 1)) else (ctr, cur)
  end.
Fixpoint run_from_bitset_loop (fuel : nat) (ws : list Z) (answer : list run) (long_ctr cur_word : Z) : list run :=
  match fuel with
  | O => answer
  | S f =>
    let '(ctr1, cur1) := skip_zero 1024 ws long_ctr cur_word in
    if cur1 =? 0 then answer else
    let run_start := ctz cur1 + 64 * ctr1 in
    let '(ctr2, cur2) := skip_ones 1024 ws ctr1 (Z.lor cur1 (cur1 - 1)) in
    if cur2 =? ones64 then add_run answer run_start (64 + ctr2 * 64 - 1)
    else
      let run_end := ctz (not64 cur2) + ctr2 * 64 in
      run_from_bitset_loop f ws (add_run answer run_start (run_end - 1)) ctr2 (Z.land cur2 (cur2 + 1))
  end.
Definition run_container_from_bitset (b : bset) : list run :=
  run_from_bitset_loop (Z.to_nat 65537) (b_words b) [] 0 (znth (b_words b) 0).
(** convert.c:217-321 convert_run_optimize *)
Definition convert_run_optimize (c : container) : container :=
  match c with
  | CRun r => convert_run_to_efficient_container r
  | CArr a =>
    if array_container_serialized_size_in_bytes (zlen a) <=?
       run_container_serialized_size_in_bytes (array_container_number_of_runs a) then c
    else CRun (let '(answer, run_start, prev) := run_from_array_loop a [] (-1) (-2) in add_run answer run_start prev)
  | CBit b =>
    if bitset_container_serialized_size_in_bytes <=?
       run_container_serialized_size_in_bytes (bitset_container_number_of_runs b) then c
    else CRun (run_container_from_bitset b)
  end.
(** convert.c:323-348 container_from_run_range *)
Definition container_from_run_range (r : list run) (min max : Z) : container :=
  let ws := set_runs (b_words bitset_container_create) r in
  let union_cardinality := fold_left (fun s x => s + (snd x + 1)) r 0 + (max - min + 1)
                           - bitset_lenrange_cardinality ws min (max - min) in
  let b := (union_cardinality, bitset_set_lenrange ws min (max - min)) in
  if b_card b <=? 4096 then CArr (array_container_from_bitset b) else CBit b.

(** * Proofs *)
Lemma vals_In P x : In x (vals P) <-> 0 <= x < 65536 /\ P x = true.
Proof. unfold vals. rewrite filter_In, zr_In. tauto. Qed.
Lemma awf_vals P : awf (vals P).
Proof.
  split; [apply incr_filter; apply awf_zr; lia|]. apply inb_filter. apply awf_zr; lia.
Qed.
Lemma amem_vals P x : 0 <= x < 65536 -> amem (vals P) x = P x.
Proof. intros H. apply zmem_bool. rewrite vals_In. tauto. Qed.
Lemma zlen_vals P : zlen (vals P) = cnt P 0 65536.
Proof. reflexivity. Qed.
Lemma ccard_bound c : 0 <= ccard c <= 65536.
Proof. unfold ccard. pose proof (cnt_bound (cmem c) 0 65536). lia. Qed.
Lemma cok_cwf c : cok c -> cwf c.
Proof. destruct c; cbn; tauto. Qed.
Lemma cok_card_pos c : cok c -> 0 < ccard c.
Proof.
  destruct c as [a|b|r]; cbn [cok]; unfold ccard; cbn [cmem].
  - intros [H1 H2]. pose proof (zlen_acard a H1) as E. unfold acard in E. rewrite <- E. lia.
  - intros [H1 H2]. destruct H1 as [_ H1]. unfold bcard in H1. rewrite <- H1. lia.
  - intros [H1 H2]. apply (rcard_pos r H1). exact H2.
Qed.
Lemma rep_card c P : rep c P -> ccard c = cnt P 0 65536.
Proof. intros [_ H]. unfold ccard. apply cnt_ext. auto. Qed.
Lemma wrep_card c P : wrep c P -> ccard c = cnt P 0 65536.
Proof. intros [_ H]. unfold ccard. apply cnt_ext. auto. Qed.
Lemma rep_wrep c P : rep c P -> wrep c P.
Proof. intros [H1 H2]. split; auto. now apply cok_cwf. Qed.
Lemma rep_ext c P Q : rep c P -> (forall x, 0 <= x < 65536 -> P x = Q x) -> rep c Q.
Proof. intros [H1 H2] H. split; auto. intros x Hx. rewrite H2; auto. Qed.
Lemma wrep_ext c P Q : wrep c P -> (forall x, 0 <= x < 65536 -> P x = Q x) -> wrep c Q.
Proof. intros [H1 H2] H. split; auto. intros x Hx. rewrite H2; auto. Qed.

(** *** bit tricks *)
Lemma pred_tb w j : isw w -> w <> 0 -> 0 <= j < 64 ->
  Z.testbit (w-1) j = if j <? ctz w then true else if j =? ctz w then false else Z.testbit w j.
Proof.
  intros Hw Hn Hj. destruct (ctz_spec w Hw Hn) as (Hk&Hb&Hl). set (k := ctz w) in *.
  assert (w mod 2^k = 0) as Hm.
  { apply Z.bits_inj'. intros i Hi. rewrite Z.bits_0. destruct (Z_lt_dec i k).
    - rewrite Z.mod_pow2_bits_low by lia. apply Hl. lia.
    - rewrite Z.mod_pow2_bits_high by lia. reflexivity. }
  assert (0 < 2^k) by (apply Z.pow_pos_nonneg; lia).
  assert (Ew : w = 2^k * (w / 2^k)) by (rewrite (Z.div_mod w (2^k)) at 1; lia).
  set (q := w / 2^k) in *.
  assert (Hq : Z.testbit q 0 = true).
  { unfold q. rewrite Z.div_pow2_bits by lia. rewrite Z.add_0_l. exact Hb. }
  rewrite Z.bit0_odd in Hq. apply Z.odd_spec in Hq. destruct Hq as (m&Hm2).
  assert (E1 : w - 1 = (2*m) * 2^k + (2^k - 1)) by nia.
  assert (E2 : w = (2*m+1) * 2^k) by nia.
  destruct (Z.ltb_spec j k); [|destruct (Z.eqb_spec j k)].
  - rewrite <- (Z.mod_pow2_bits_low (w-1) k j) by lia. rewrite E1, Z.add_comm, Z.mod_add by lia. rewrite Z.mod_small by lia.
    replace (2^k - 1) with (Z.ones k) by (rewrite Z.ones_equiv; lia). apply Z.ones_spec_low. lia.
  - subst j. rewrite (tb_high _ k k) by lia. rewrite Z.sub_diag, E1.
    rewrite Z.div_add_l by lia. rewrite Z.div_small by lia. rewrite Z.add_0_r. apply Z.testbit_even_0.
  - rewrite (tb_high (w-1) k j), (tb_high w k j) by lia. fold q. rewrite Hm2, E1.
    rewrite Z.div_add_l by lia. rewrite (Z.div_small (2^k-1)) by lia. rewrite Z.add_0_r.
    replace (j - k) with (Z.succ (j - k - 1)) by lia. rewrite Z.testbit_odd_succ, Z.testbit_even_succ by lia. reflexivity.
Qed.
Lemma lor_pred_tb w j : isw w -> w <> 0 -> 0 <= j < 64 ->
  Z.testbit (Z.lor w (w-1)) j = (j <? ctz w) || Z.testbit w j.
Proof.
  intros Hw Hn Hj. rewrite Z.lor_spec, pred_tb by auto. destruct (ctz_spec w Hw Hn) as (Hk&Hb&Hl).
  destruct (Z.ltb_spec j (ctz w)); [now rewrite orb_true_r|]. destruct (Z.eqb_spec j (ctz w)); subst; rewrite ?Hb; auto.
  cbn. apply orb_diag.
Qed.
Lemma not64_sub w : isw w -> not64 w = ones64 - w.
Proof.
  intros H. unfold not64. assert (E : Z.lxor w ones64 + w = ones64).
  { rewrite Z.add_nocarry_lxor.
    - rewrite Z.lxor_assoc, (Z.lxor_comm ones64 w), <- Z.lxor_assoc, Z.lxor_nilpotent. apply Z.lxor_0_l.
    - apply Z.bits_inj'. intros i Hi. rewrite Z.bits_0, Z.land_spec, Z.lxor_spec, tb_ones by auto.
      destruct (Z.ltb_spec i 64); [destruct (Z.testbit w i); reflexivity|]. rewrite (isw_high w i H) by auto. reflexivity. }
  lia.
Qed.
Lemma land_succ_tb w j : isw w -> w <> ones64 -> 0 <= j < 64 ->
  Z.testbit (Z.land w (w+1)) j = (ctz (not64 w) <? j) && Z.testbit w j.
Proof.
  intros Hw Hn Hj. assert (N : not64 w = ones64 - w) by now apply not64_sub.
  assert (Hnw : isw (not64 w)) by now apply isw_not.
  assert (Hn0 : not64 w <> 0) by (rewrite N; lia).
  assert (E : w + 1 = not64 (not64 w - 1)).
  { rewrite not64_sub by (unfold isw in *; lia). lia. }
  rewrite Z.land_spec, E, tb_not by auto. rewrite pred_tb by auto. destruct (ctz_spec _ Hnw Hn0) as (Hk&Hb&Hl).
  destruct (Z.ltb_spec j (ctz (not64 w))).
  - cbn [negb]. rewrite andb_false_r. replace (ctz (not64 w) <? j) with false by lia. reflexivity.
  - destruct (Z.eqb_spec j (ctz (not64 w))) as [->|].
    + rewrite tb_not in Hb by lia. apply negb_true_iff in Hb. rewrite Hb. now rewrite andb_false_r.
    + rewrite tb_not by lia. rewrite negb_involutive, andb_diag. replace (ctz (not64 w) <? j) with true by lia. reflexivity.
Qed.

(** *** number of runs *)
Lemma zlen_runs_aux r lo : rok lo r -> 0 <= lo <= 65537 -> zlen r = cnt (run_end (rmem r)) lo 65536.
Proof.
  revert lo. induction r as [|[v l] r IH]; intros lo H Hlo.
  - rewrite cnt_none by reflexivity. reflexivity.
  - cbn [rok] in H. destruct H as (A1&A2&A3&A4). rewrite zlen_cons.
    assert (M : forall y, y < v + l + 2 -> rmem ((v,l)::r) y = inrun (v,l) y).
    { intros y Hy. rewrite rmem_cons, (rmem_lo _ _ _ A4) by lia. apply orb_false_r. }
    rewrite (cnt_app _ lo (v+l) 65536) by lia. rewrite (cnt_app _ (v+l) (v+l+1) 65536) by lia.
    rewrite (cnt_none _ lo (v+l)).
    2:{ intros y Hy. unfold run_end. rewrite !M by lia. unfold inrun. cbn [fst snd]. lia. }
    rewrite (cnt_full _ (v+l) (v+l+1)); [|lia|].
    2:{ intros y Hy. unfold run_end. rewrite !M by lia. unfold inrun. cbn [fst snd]. lia. }
    destruct (Z_le_dec (v+l+2) 65536) as [L|L].
    + rewrite (cnt_app _ (v+l+1) (v+l+2) 65536) by lia. rewrite (cnt_none _ (v+l+1) (v+l+2)).
      2:{ intros y Hy. unfold run_end. rewrite (M y) by lia. unfold inrun. cbn [fst snd]. lia. }
      rewrite (IH (v+l+2)) by (auto; lia).
      rewrite (cnt_ext (run_end (rmem ((v,l)::r))) (run_end (rmem r)) (v+l+2)); [lia|].
      intros y Hy. unfold run_end. rewrite !rmem_cons. unfold inrun. cbn [fst snd].
      replace (y <=? v+l) with false by lia. replace (y+1 <=? v+l) with false by lia. rewrite !andb_false_r. reflexivity.
    + assert (r = []). { destruct r as [|[v' l'] r]; auto. cbn [rok] in A4. lia. } subst r.
      rewrite cnt_nil by lia. change (zlen (@nil run)) with 0; lia.
Qed.
Lemma zlen_runs r : rwf r -> zlen r = cnt (run_end (rmem r)) 0 65536.
Proof. intros H. apply zlen_runs_aux; auto. lia. Qed.
Lemma run_end_ext P Q x : P x = Q x -> P (x+1) = Q (x+1) -> run_end P x = run_end Q x.
Proof. unfold run_end. now intros -> ->. Qed.

(** *** conversions *)
Lemma fold_bset_set a b : bwf b -> inb 0 65536 a ->
  bwf (fold_left bitset_container_set a b) /\
  forall x, 0 <= x -> bget (b_words (fold_left bitset_container_set a b)) x = bget (b_words b) x || zmem x a.
Proof.
  revert b. induction a as [|v a IH]; intros b Hb Ha; cbn [fold_left].
  - split; auto. intros. cbn. now rewrite orb_false_r.
  - apply inb_cons in Ha. destruct Ha as [Hv Ha]. destruct (bitset_add_spec b v Hb Hv) as (A1&A2&_).
    unfold bitset_container_set at 2 4. destruct (IH _ A1 Ha) as [B1 B2]. split; auto.
    intros x Hx. rewrite B2, A2 by auto. rewrite zmem_cons. btauto.
Qed.
Lemma bitset_from_array_spec a : awf a ->
  bwf (bitset_container_from_array a) /\
  forall x, 0 <= x < 65536 -> bget (b_words (bitset_container_from_array a)) x = amem a x.
Proof.
  intros [Hi Hb]. destruct (fold_bset_set a bitset_container_create create_bwf Hb) as [A1 A2]. split; auto.
  intros x Hx. unfold bitset_container_from_array. rewrite A2 by lia.
  assert (E : bget (b_words bitset_container_create) x = false) by (apply bget_zero; lia). rewrite E. reflexivity.
Qed.
Lemma set_runs_spec r ws lo : bws ws -> 0 <= lo -> rok lo r ->
  bws (set_runs ws r) /\ forall x, 0 <= x -> bget (set_runs ws r) x = bget ws x || rmem r x.
Proof.
  revert ws lo. induction r as [|[v l] r IH]; intros ws lo Hw Hlo H; unfold set_runs; cbn [fold_left].
  - split; auto. intros. now rewrite orb_false_r.
  - cbn [rok] in H. destruct H as (A1&A2&A3&A4). cbn [fst snd]. fold (set_runs (bitset_set_lenrange ws v l) r).
    destruct Hw as [W1 W2]. assert (Hw' : bws (bitset_set_lenrange ws v l)).
    { split; [now apply wfw_set_lenrange|]. now rewrite zlen_set_lenrange. }
    destruct (IH _ (v+l+2) Hw' ltac:(lia) A4) as [B1 B2]. split; auto. intros x Hx. rewrite B2 by auto.
    rewrite bitset_set_lenrange_spec by (auto; lia). rewrite rmem_cons. unfold inrun. cbn [fst snd]. btauto.
Qed.
Lemma bcard_rcard ws r : (forall x, 0 <= x < 65536 -> bget ws x = rmem r x) -> bcard ws = rcard r.
Proof. intros H. unfold bcard, rcard. apply cnt_ext. auto. Qed.
Lemma bitset_from_run_spec r : rwf r ->
  bwf (bitset_container_from_run r) /\ b_card (bitset_container_from_run r) = rcard r /\
  forall x, 0 <= x < 65536 -> bget (b_words (bitset_container_from_run r)) x = rmem r x.
Proof.
  intros H. unfold bitset_container_from_run. cbn [b_card b_words fst snd].
  destruct (set_runs_spec r (b_words bitset_container_create) 0 bws_zero ltac:(lia) H) as [A1 A2].
  assert (A3 : forall x, 0 <= x < 65536 -> bget (set_runs (b_words bitset_container_create) r) x = rmem r x).
  { intros x Hx. rewrite A2 by lia. assert (E : bget (b_words bitset_container_create) x = false) by (apply bget_zero; lia). now rewrite E. }
  split; [|split; auto].
  - split; auto. cbn [b_card b_words fst snd]. rewrite run_cardinality_spec by auto. symmetry. now apply bcard_rcard.
  - now apply run_cardinality_spec.
Qed.
Lemma bitset_from_run_range_spec r : rwf r ->
  let ws := fold_left (fun ws x => bitset_set_range ws (fst x) (fst x + snd x + 1)) r (b_words bitset_container_create) in
  bws ws /\ forall x, 0 <= x < 65536 -> bget ws x = rmem r x.
Proof.
  intros H. cbn zeta.
  assert (G : forall r lo ws, bws ws -> 0 <= lo -> rok lo r ->
    let ws' := fold_left (fun ws (x:run) => bitset_set_range ws (fst x) (fst x + snd x + 1)) r ws in
    bws ws' /\ forall x, 0 <= x -> bget ws' x = bget ws x || rmem r x).
  { clear. induction r as [|[v l] r IH]; intros lo ws Hw Hlo H; cbn [fold_left].
    - split; auto. intros. now rewrite orb_false_r.
    - cbn [rok] in H. destruct H as (A1&A2&A3&A4). cbn [fst snd]. destruct Hw as [W1 W2].
      assert (Hw' : bws (bitset_set_range ws v (v+l+1))).
      { split; [now apply wfw_set_range|]. now rewrite zlen_set_range. }
      destruct (IH (v+l+2) _ Hw' ltac:(lia) A4) as [B1 B2]. split; auto. intros x Hx. rewrite B2 by auto.
      rewrite bitset_set_range_spec by (auto; lia). rewrite rmem_cons. unfold inrun. cbn [fst snd].
      replace (x <? v + l + 1) with (x <=? v + l) by lia. btauto. }
  destruct (G r 0 (b_words bitset_container_create) bws_zero ltac:(lia) H) as [A1 A2]. split; auto.
  intros x Hx. rewrite A2 by lia. assert (E : bget (b_words bitset_container_create) x = false) by (apply bget_zero; lia). now rewrite E.
Qed.
Lemma array_from_run_eq r lo : 0 <= lo -> rok lo r -> array_container_from_run r = run_container_to_uint32_array r 0.
Proof.
  revert lo. induction r as [|[v l] r IH]; intros lo Hlo H; [reflexivity|].
  cbn [rok] in H. destruct H as (A1&A2&A3&A4). unfold array_container_from_run, run_container_to_uint32_array. cbn [flat_map].
  fold (array_container_from_run r) (run_container_to_uint32_array r 0). rewrite (IH (v+l+2)) by (auto; lia). f_equal. cbn [fst snd].
  assert (E : map u16 (zr v (v+l+1)) = zr v (v+l+1)) by (apply map_mod_zr; lia). rewrite E.
  assert (E2 : map (fun j => 0 + v + j) (zr 0 (l+1)) = zr (0+v+0) (0+v+(l+1))) by apply zr_map_add. rewrite E2.
  f_equal; lia.
Qed.
Lemma map_add0 (l : list Z) : map (fun x => x + 0) l = l.
Proof. rewrite <- (map_id l) at 2. apply map_ext. intros. lia. Qed.
Lemma array_from_run_spec r : rwf r -> array_container_from_run r = vals (rmem r).
Proof.
  intros H. rewrite (array_from_run_eq r 0) by (auto; lia). rewrite run_to_array_spec by auto. apply map_add0.
Qed.
Lemma array_from_run16_eq r lo : rok lo r -> 0 <= lo -> flat_map run_values16 r = array_container_from_run r.
Proof.
  revert lo. induction r as [|[v l] r IH]; intros lo H Hlo; [reflexivity|]. cbn [rok] in H. destruct H as (A1&A2&A3&A4).
  unfold array_container_from_run. cbn [flat_map]. fold (array_container_from_run r). rewrite (IH (v+l+2)) by (auto; lia). f_equal.
  unfold run_values16. cbn [fst snd]. cbn zeta. rewrite u16_small by lia. unfold u16. rewrite map_mod_zr by lia. symmetry. apply zr_snoc. lia.
Qed.
Lemma array_from_run16_spec r : rwf r -> flat_map run_values16 r = vals (rmem r).
Proof. intros H. rewrite (array_from_run16_eq r 0) by (auto; lia). now apply array_from_run_spec. Qed.
Lemma array_from_bitset_spec b : bws (b_words b) -> array_container_from_bitset b = vals (bget (b_words b)).
Proof.
  intros [H1 H2]. unfold array_container_from_bitset. rewrite bitset_extract_setbits_spec by auto. rewrite H2. apply map_add0.
Qed.
Lemma convert_to_boa_spec r card : rwf r -> r <> [] -> card = rcard r -> rep (convert_to_bitset_or_array_container r card) (rmem r).
Proof.
  intros H Hn E. unfold convert_to_bitset_or_array_container. destruct (Z.leb_spec card 4096).
  - rewrite array_from_run16_spec by auto. split.
    + cbn [cok]. split; [apply awf_vals|]. rewrite zlen_vals. fold (rcard r). apply (rcard_pos r H) in Hn. lia.
    + intros x Hx. cbn [cmem]. now apply amem_vals.
  - destruct (bitset_from_run_spec r H) as (A1&A2&A3). unfold bitset_container_from_run in *. rewrite run_cardinality_spec in * by auto.
    rewrite <- E in *. split; auto. cbn [cok]. split; auto.
Qed.
Lemma convert_run_eff_spec r : rwf r -> r <> [] -> rep (convert_run_to_efficient_container r) (rmem r).
Proof.
  intros H Hn. unfold convert_run_to_efficient_container.
  match goal with |- context [if ?c <=? ?d then CRun r else _] => destruct (c <=? d) end.
  - split; cbn; auto.
  - rewrite run_cardinality_spec by auto. destruct (Z.leb_spec (rcard r) 4096).
    + rewrite array_from_run_spec by auto. split.
      * cbn [cok]. split; [apply awf_vals|]. rewrite zlen_vals. fold (rcard r). apply (rcard_pos r H) in Hn. lia.
      * intros x Hx. cbn [cmem]. now apply amem_vals.
    + destruct (bitset_from_run_range_spec r H) as [A1 A2]. cbn zeta in A1, A2. split; auto. cbn [cok]. split; [|auto].
      split; auto. cbn [b_card b_words fst snd]. symmetry. now apply bcard_rcard.
Qed.
Lemma add_run_spec rc s e : rok 0 rc -> rnext 0 rc <= s -> s <= e -> e < 65536 ->
  rok 0 (add_run rc s e) /\ rnext 0 (add_run rc s e) = e + 2 /\ add_run rc s e <> [] /\
  forall y, rmem (add_run rc s e) y = rmem rc y || ((s <=? y) && (y <=? e)).
Proof.
  intros H H1 H2 H3. pose proof (rnext_ge _ _ H). unfold add_run. rewrite !u16_small by lia. split; [|split; [|split]].
  - apply rok_app. split; auto. cbn [rok]. repeat split; lia.
  - rewrite rnext_app. cbn [rnext]. lia.
  - destruct rc; discriminate.
  - intros y. rsimp. rewrite orb_false_r. f_equal. f_equal. lia.
Qed.
Lemma run_from_array_loop_spec a answer s p : incr a -> inb 0 65536 a -> (forall x, In x a -> p < x) ->
  rok 0 answer -> rnext 0 answer <= s -> s <= p -> p < 65536 ->
  let '(answer', s', p') := run_from_array_loop a answer s p in
  rok 0 answer' /\ rnext 0 answer' <= s' /\ s' <= p' /\ p' < 65536 /\
  forall y, rmem answer' y || ((s' <=? y) && (y <=? p')) = rmem answer y || ((s <=? y) && (y <=? p)) || zmem y a.
Proof.
  revert answer s p. induction a as [|v a IH]; intros answer s p Hi Hb Hgt H H1 H2 H3; cbn [run_from_array_loop].
  - repeat split; auto. intros y. cbn. now rewrite orb_false_r.
  - pose proof (rnext_ge _ _ H). apply incr_cons in Hi. destruct Hi as [Hi1 Hi2]. rewrite Forall_forall in Hi1.
    apply inb_cons in Hb. destruct Hb as [Hb1 Hb2]. pose proof (Hgt v (or_introl eq_refl)) as Hv.
    destruct (Z.eqb_spec v (p+1)).
    + specialize (IH answer s v). destruct (run_from_array_loop a answer s v) as [[answer' s'] p'].
      destruct IH as (B1&B2&B3&B4&B5); auto; try lia. repeat split; auto. intros y. rewrite B5, zmem_cons. destruct (rmem answer y), (zmem y a); lia.
    + replace (s =? -1) with false by lia. destruct (add_run_spec answer s p) as (C1&C2&C3&C4); auto.
      specialize (IH (add_run answer s p) v v). destruct (run_from_array_loop a (add_run answer s p) v v) as [[answer' s'] p'].
      destruct IH as (B1&B2&B3&B4&B5); auto; try lia. repeat split; auto. intros y. rewrite B5, C4, zmem_cons. destruct (rmem answer y), (zmem y a); lia.
Qed.
Lemma run_from_array_aux a : awf a -> a <> [] ->
  let r := (let '(answer, run_start, prev) := run_from_array_loop a [] (-1) (-2) in add_run answer run_start prev) in
  rwf r /\ r <> [] /\ forall y, rmem r y = amem a y.
Proof.
  intros [Hi Hb] Hn. cbn zeta. destruct a as [|v a]; [congruence|]. cbn [run_from_array_loop].
  apply incr_cons in Hi. destruct Hi as [Hi1 Hi2]. rewrite Forall_forall in Hi1. apply inb_cons in Hb. destruct Hb as [Hb1 Hb2].
  replace (v =? -2 + 1) with false by lia. change (-1 =? -1) with true. cbn [negb].
  pose proof (run_from_array_loop_spec a [] v v Hi2 Hb2 Hi1) as G. destruct (run_from_array_loop a [] v v) as [[answer s] p].
  cbn [rok rnext] in G. destruct G as (B1&B2&B3&B4&B5); auto; try lia.
  destruct (add_run_spec answer s p) as (C1&C2&C3&C4); auto. split; auto. split; auto. intros y. rewrite C4, B5. unfold amem. rewrite zmem_cons, rmem_nil.
  cbn [orb]. f_equal. lia.
Qed.
Lemma run_from_array_spec a : awf a -> rwf (run_container_from_array a) /\ forall y, rmem (run_container_from_array a) y = amem a y.
Proof.
  intros H. unfold run_container_from_array. destruct (Z.eqb_spec (zlen a) 0) as [E|E].
  - apply zlen_0_nil in E. subst a. split; [exact I|reflexivity].
  - destruct (run_from_array_aux a H) as (A1&A2&A3); auto. intros ->. now apply E.
Qed.

(** *** bitset to runs *)
Definition tail_word (ws : list Z) (p ctr cur : Z) : Prop :=
  isw cur /\ forall i, 0 <= i < 64 -> Z.testbit cur i = bget ws (64*ctr+i) && (p <=? 64*ctr+i).
Lemma bget_word ws ctr i : 0 <= ctr -> 0 <= i < 64 -> bget ws (64*ctr+i) = Z.testbit (znth ws ctr) i.
Proof.
  intros H H1. unfold bget. replace ((64*ctr+i)/64) with ctr by (apply Z.div_unique with i; lia).
  replace ((64*ctr+i) mod 64) with i by (apply Z.mod_unique with ctr; lia). reflexivity.
Qed.
Lemma bits_zero_iff w : isw w -> (forall i, 0 <= i < 64 -> Z.testbit w i = false) -> w = 0.
Proof. intros H H1. apply isw_ext; auto. { unfold isw; lia. } intros i Hi. rewrite H1, Z.bits_0; auto. Qed.
Lemma isw_ones : isw ones64. Proof. unfold isw, ones64. lia. Qed.
Lemma skip_zero_spec fuel ws ctr cur p : bws ws -> 0 <= ctr <= 1023 -> tail_word ws p ctr cur -> p <= 64*ctr+64 -> 1023 - ctr < Z.of_nat fuel ->
  (forall x, p <= x < 64*ctr -> bget ws x = false) ->
  let '(ctr', cur') := skip_zero fuel ws ctr cur in
  ctr <= ctr' <= 1023 /\ tail_word ws p ctr' cur' /\ p <= 64*ctr'+64 /\ (cur' = 0 -> ctr' = 1023) /\
  (forall x, p <= x < 64*ctr' -> bget ws x = false).
Proof.
  revert ctr cur. induction fuel; intros ctr cur Hw Hc Ht Hp Hf Hz; [lia|]. cbn [skip_zero].
  destruct (Z.eqb_spec cur 0) as [->|E]; [destruct (Z.ltb_spec ctr 1023)|]; cbn [andb].
  - specialize (IHfuel (ctr+1) (znth ws (ctr+1))). destruct (skip_zero fuel ws (ctr+1) (znth ws (ctr+1))) as [ctr' cur'].
    destruct IHfuel as (B1&B2&B3&B4&B5); auto; try lia.
    + split; [apply wfw_znth; apply Hw|]. intros i Hi. rewrite bget_word by lia. replace (p <=? 64*(ctr+1)+i) with true by lia. now rewrite andb_true_r.
    + intros x Hx. destruct (Z_lt_dec x (64*ctr)); [apply Hz; lia|]. destruct Ht as [_ Ht]. specialize (Ht (x-64*ctr) ltac:(lia)).
      rewrite Z.bits_0 in Ht. replace (64*ctr+(x-64*ctr)) with x in Ht by lia. replace (p <=? x) with true in Ht by lia. now rewrite andb_true_r in Ht.
    + repeat split; auto; try lia; apply B2.
  - repeat split; auto; try lia; apply Ht.
  - repeat split; auto; try lia; apply Ht.
Qed.
Definition head_word (ws : list Z) (s ctr cur : Z) : Prop :=
  isw cur /\ forall i, 0 <= i < 64 -> Z.testbit cur i = bget ws (64*ctr+i) || (64*ctr+i <? s).
Lemma skip_ones_spec fuel ws ctr cur s : bws ws -> 0 <= ctr <= 1023 -> head_word ws s ctr cur -> s < 64*ctr+64 -> 1023 - ctr < Z.of_nat fuel ->
  (forall x, s <= x < 64*ctr -> bget ws x = true) ->
  let '(ctr', cur') := skip_ones fuel ws ctr cur in
  ctr <= ctr' <= 1023 /\ head_word ws s ctr' cur' /\ s < 64*ctr'+64 /\ (cur' = ones64 -> ctr' = 1023) /\
  (forall x, s <= x < 64*ctr' -> bget ws x = true).
Proof.
  revert ctr cur. induction fuel; intros ctr cur Hw Hc Ht Hp Hf Hz; [lia|]. cbn [skip_ones].
  destruct (Z.eqb_spec cur ones64) as [->|E]; [destruct (Z.ltb_spec ctr 1023)|]; cbn [andb].
  - specialize (IHfuel (ctr+1) (znth ws (ctr+1))). destruct (skip_ones fuel ws (ctr+1) (znth ws (ctr+1))) as [ctr' cur'].
    destruct IHfuel as (B1&B2&B3&B4&B5); auto; try lia.
    + split; [apply wfw_znth; apply Hw|]. intros i Hi. rewrite bget_word by lia. replace (64*(ctr+1)+i <? s) with false by lia. now rewrite orb_false_r.
    + intros x Hx. destruct (Z_lt_dec x (64*ctr)); [apply Hz; lia|]. destruct Ht as [_ Ht]. specialize (Ht (x-64*ctr) ltac:(lia)).
      rewrite tb_ones in Ht by lia. replace (64*ctr+(x-64*ctr)) with x in Ht by lia. replace (x <? s) with false in Ht by lia. rewrite orb_false_r in Ht. lia.
    + repeat split; auto; try lia; apply B2.
  - repeat split; auto; try lia; apply Ht.
  - repeat split; auto; try lia; apply Ht.
Qed.
Lemma run_from_bitset_loop_spec fuel ws answer ctr cur p : bws ws -> 0 <= ctr <= 1023 -> tail_word ws p ctr cur ->
  64*ctr <= p < 64*ctr+64 -> 65536 - p < Z.of_nat fuel ->
  rok 0 answer -> rnext 0 answer <= p + 1 -> (p = 0 /\ answer = [] \/ bget ws p = false) ->
  (forall y, 0 <= y < p -> rmem answer y = bget ws y) ->
  let r := run_from_bitset_loop fuel ws answer ctr cur in
  rok 0 r /\ forall y, 0 <= y < 65536 -> rmem r y = bget ws y.
Proof.
  revert answer ctr cur p. induction fuel; intros answer ctr cur p Hw Hc Ht Hp Hf Hr Hn Hb Hm; [lia|].
  cbn zeta. cbn [run_from_bitset_loop].
  pose proof (skip_zero_spec 1024 ws ctr cur p Hw Hc Ht ltac:(lia) ltac:(lia) ltac:(intros; lia)) as SZ.
  destruct (skip_zero 1024 ws ctr cur) as [ctr1 cur1]. destruct SZ as (A1&A2&A3&A4&A5).
  assert (Hae : forall y, p <= y -> rmem answer y = false).
  { intros y Hy. apply (rmem_hi 0); auto; lia. }
  destruct (Z.eqb_spec cur1 0) as [E|E].
  { split; auto. intros y Hy. destruct (Z_lt_dec y p); [apply Hm; lia|]. rewrite Hae by lia. symmetry.
    destruct (Z_lt_dec y (64*ctr1)); [apply A5; lia|]. rewrite (A4 E) in *. destruct A2 as [_ A2]. specialize (A2 (y-64*1023) ltac:(lia)).
    rewrite E, Z.bits_0 in A2. replace (64*1023+(y-64*1023)) with y in A2 by lia. replace (p <=? y) with true in A2 by lia. now rewrite andb_true_r in A2. }
  destruct A2 as [W1 A2]. destruct (ctz_spec cur1 W1 E) as (K1&K2&K3). set (t := ctz cur1) in *.
  assert (Hs : bget ws (64*ctr1+t) = true /\ p <= 64*ctr1+t). { rewrite A2 in K2 by lia. apply andb_true_iff in K2. split; [tauto|lia]. }
  replace (t + 64*ctr1) with (64*ctr1+t) by lia. set (s := 64*ctr1+t) in *.
  assert (Hgap : forall y, p <= y < s -> bget ws y = false).
  { intros y Hy. destruct (Z_lt_dec y (64*ctr1)); [apply A5; lia|]. specialize (K3 (y-64*ctr1) ltac:(lia)). rewrite A2 in K3 by lia.
    replace (64*ctr1+(y-64*ctr1)) with y in K3 by lia. replace (p <=? y) with true in K3 by lia. now rewrite andb_true_r in K3. }
  assert (Hsn : rnext 0 answer <= s).
  { destruct Hb as [[-> ->]|Hb]; [cbn; lia|]. destruct (Z.eq_dec s p); [destruct Hs; congruence|lia]. }
  assert (HW : head_word ws s ctr1 (Z.lor cur1 (cur1-1))).
  { split; [apply isw_lor; auto; unfold isw in *; lia|]. intros i Hi. rewrite lor_pred_tb by auto. fold t. rewrite A2 by auto.
    destruct (Z.ltb_spec i t).
    - replace (64*ctr1+i <? s) with true by lia. now rewrite orb_true_r.
    - replace (64*ctr1+i <? s) with false by lia. replace (p <=? 64*ctr1+i) with true by lia. now rewrite andb_true_r, orb_false_r. }
  pose proof (skip_ones_spec 1024 ws ctr1 _ s Hw ltac:(lia) HW ltac:(lia) ltac:(lia) ltac:(intros; lia)) as SO.
  destruct (skip_ones 1024 ws ctr1 (Z.lor cur1 (cur1-1))) as [ctr2 cur2]. destruct SO as (B1&B2&B3&B4&B5).
  destruct B2 as [W2 B2].
  destruct (Z.eqb_spec cur2 ones64) as [E2|E2].
  { rewrite (B4 E2) in *. destruct (add_run_spec answer s (64 + 1023*64 - 1)) as (C1&C2&C3&C4); auto; try lia.
    split; auto. intros y Hy. rewrite C4. destruct (Z_lt_dec y p); [rewrite Hm by lia; replace (s <=? y) with false by lia; apply orb_false_r|].
    rewrite Hae by lia. destruct (Z_lt_dec y s); [rewrite Hgap by lia; lia|].
    assert (bget ws y = true) as ->; [|lia].
    destruct (Z_lt_dec y (64*1023)); [apply B5; lia|]. specialize (B2 (y-64*1023) ltac:(lia)). rewrite E2, tb_ones in B2 by lia.
    replace (64*1023+(y-64*1023)) with y in B2 by lia. replace (y <? s) with false in B2 by lia. rewrite orb_false_r in B2. lia. }
  assert (W3 : isw (not64 cur2)) by now apply isw_not.
  assert (N3 : not64 cur2 <> 0). { rewrite not64_sub by auto. lia. }
  destruct (ctz_spec _ W3 N3) as (D1&D2&D3). set (t2 := ctz (not64 cur2)) in *.
  replace (t2 + ctr2*64) with (64*ctr2+t2) by lia. set (e := 64*ctr2+t2) in *.
  assert (He : bget ws e = false /\ s <= e).
  { rewrite tb_not in D2 by lia. rewrite B2 in D2 by lia. fold e in D2. split; [|lia]. destruct (bget ws e); cbn in D2; congruence. }
  assert (Hone : forall y, s <= y < e -> bget ws y = true).
  { intros y Hy. destruct (Z_lt_dec y (64*ctr2)); [apply B5; lia|]. specialize (D3 (y-64*ctr2) ltac:(lia)). rewrite tb_not, B2 in D3 by lia.
    replace (64*ctr2+(y-64*ctr2)) with y in D3 by lia. replace (y <? s) with false in D3 by lia. rewrite orb_false_r in D3. apply negb_false_iff in D3. auto. }
  assert (Hse : s < e) by (destruct (Z.eq_dec s e); [destruct Hs; destruct He; congruence|lia]).
  destruct (add_run_spec answer s (e-1)) as (C1&C2&C3&C4); auto; try lia.
  apply (IHfuel _ ctr2 _ e); auto; try lia.
  - split; [now apply isw_land|]. intros i Hi. rewrite land_succ_tb by auto. fold t2. rewrite B2 by auto.
    destruct (Z.ltb_spec t2 i).
    + replace (64*ctr2+i <? s) with false by lia. replace (e <=? 64*ctr2+i) with true by lia. now rewrite orb_false_r, andb_true_r.
    + destruct (Z.eq_dec i t2) as [->|]; [fold e; destruct He as [-> _]; reflexivity|]. replace (e <=? 64*ctr2+i) with false by lia. now rewrite andb_false_r.
  - intros y Hy. rewrite C4. destruct (Z_lt_dec y p); [rewrite Hm by lia; replace (s <=? y) with false by lia; apply orb_false_r|].
    rewrite Hae by lia. destruct (Z_lt_dec y s); [rewrite Hgap by lia; lia|]. rewrite Hone by lia. lia.
Qed.
Lemma run_from_bitset_spec b : bws (b_words b) ->
  rwf (run_container_from_bitset b) /\ forall y, 0 <= y < 65536 -> rmem (run_container_from_bitset b) y = bget (b_words b) y.
Proof.
  intros Hw. unfold run_container_from_bitset.
  apply (run_from_bitset_loop_spec (Z.to_nat 65537) (b_words b) [] 0 (znth (b_words b) 0) 0); auto; try lia; cbn [rok rnext]; auto; try lia.
  split; [apply wfw_znth; apply Hw|]. intros i Hi. rewrite bget_word by lia. replace (0 <=? 64*0+i) with true by lia. now rewrite andb_true_r.
Qed.
Lemma convert_run_optimize_spec c : cok c -> rep (convert_run_optimize c) (cmem c).
Proof.
  destruct c as [a|b|r]; cbn [cok]; intros H; unfold convert_run_optimize.
  - destruct (_ <=? _); [split; cbn; auto|]. destruct H as [H1 H2]. destruct (run_from_array_aux a H1) as (A1&A2&A3).
    { intros ->. change (zlen []) with 0 in H2. lia. }
    split; [cbn [cok]; auto|]. intros x Hx. cbn [cmem]. apply A3.
  - destruct (_ <=? _); [split; cbn; auto|]. destruct H as [H1 H2]. destruct (run_from_bitset_spec b (proj1 H1)) as [A1 A2].
    split; auto. cbn [cok]. split; auto. intros E. rewrite E in A2. destruct H1 as [_ H1].
    assert (bcard (b_words b) = 0); [|lia]. unfold bcard. apply cnt_none. intros x Hx. rewrite <- A2 by auto. reflexivity.
  - now apply convert_run_eff_spec.
Qed.
(** the number of runs reserved for the result is exactly the number written *)
Lemma convert_run_optimize_nruns a : awf a -> a <> [] ->
  zlen (let '(answer, run_start, prev) := run_from_array_loop a [] (-1) (-2) in add_run answer run_start prev) = array_container_number_of_runs a.
Proof.
  intros H Hn. destruct (run_from_array_aux a H Hn) as (A1&A2&A3). rewrite zlen_runs by auto. rewrite array_number_of_runs_spec by auto.
  apply cnt_ext. intros x Hx. apply run_end_ext; apply A3.
Qed.
Lemma run_from_bitset_nruns b : bws (b_words b) -> zlen (run_container_from_bitset b) = bitset_container_number_of_runs b.
Proof.
  intros H. destruct (run_from_bitset_spec b H) as [A1 A2]. rewrite zlen_runs by auto. rewrite bitset_number_of_runs_spec by auto.
  apply cnt_ext. intros x Hx. apply run_end_ext; [apply A2; lia|]. destruct (Z.eq_dec x 65535) as [->|]; [|apply A2; lia].
  rewrite (bget_oob _ _ H) by lia. apply rmem_oob; auto. lia.
Qed.
Lemma fold_runs_card r s : fold_left (fun s (x:run) => s + (snd x + 1)) r s = s + run_container_cardinality r.
Proof.
  unfold run_container_cardinality. revert s. induction r as [|x r IH]; intros s; cbn [fold_left].
  - change (zlen (@nil run)) with 0. lia.
  - rewrite IH. rewrite (run_card_acc r (zlen (x::r) + snd x)), (run_card_acc r (zlen r)), zlen_cons. lia.
Qed.
Lemma container_from_run_range_spec r min max : rwf r -> 0 <= min <= max -> max < 65536 ->
  rep (container_from_run_range r min max) (fun x => rmem r x || ((min <=? x) && (x <=? max))).
Proof.
  intros H H1 H2. unfold container_from_run_range.
  destruct (bitset_from_run_spec r H) as ([A1 _]&A2&A3). unfold bitset_container_from_run in *. cbn [b_card b_words fst snd] in A1, A2, A3.
  change (snd bitset_container_create) with (b_words bitset_container_create) in *.
  set (ws := set_runs (b_words bitset_container_create) r) in *. rewrite fold_runs_card. rewrite A2. cbn [Z.add].
  assert (WS : bws (bitset_set_lenrange ws min (max-min))).
  { destruct A1. split; [now apply wfw_set_lenrange|]. now rewrite zlen_set_lenrange. }
  assert (WM : forall x, 0 <= x < 65536 -> bget (bitset_set_lenrange ws min (max-min)) x = rmem r x || ((min <=? x) && (x <=? max))).
  { intros x Hx. destruct A1 as [W1 W2]. rewrite bitset_set_lenrange_spec by (auto; lia). rewrite A3 by auto. f_equal. f_equal. lia. }
  assert (WC : rcard r + (max - min + 1) - bitset_lenrange_cardinality ws min (max-min) = bcard (bitset_set_lenrange ws min (max-min))).
  { destruct A1 as [W1 W2]. rewrite bitset_lenrange_cardinality_spec by lia.
    unfold bcard. rewrite (cnt_ext (bget (bitset_set_lenrange ws min (max-min))) (fun x => rmem r x || ((min <=? x) && (x <? max + 1)))).
    2:{ intros x Hx. rewrite WM by auto. f_equal. f_equal. lia. }
    pose proof (cnt_incl_excl (rmem r) (fun x => (min <=? x) && (x <? max+1)) 0 65536) as IE.
    rewrite (cnt_restrict (rmem r) min (max+1)) in IE by lia.
    assert (E1 : cnt (fun x => (min <=? x) && (x <? max + 1)) 0 65536 = max + 1 - min).
    { rewrite <- (cnt_full (fun _ => true) min (max+1)) by (auto; lia). rewrite <- (cnt_restrict (fun _ => true) min (max+1) 0 65536) by lia. apply cnt_ext. auto. }
    rewrite E1 in IE. fold (rcard r) in IE. replace (min + (max - min) + 1) with (max+1) by lia.
    rewrite (cnt_ext (bget ws) (rmem r) min (max+1)) by (intros; apply A3; lia). lia. }
  cbn [b_card fst]. rewrite WC. destruct (Z.leb_spec (bcard (bitset_set_lenrange ws min (max-min))) 4096).
  - rewrite array_from_bitset_spec by auto. cbn [b_words snd]. split.
    + cbn [cok]. split; [apply awf_vals|]. rewrite zlen_vals. fold (bcard (bitset_set_lenrange ws min (max-min))). split; auto.
      unfold bcard. rewrite (cnt_app _ 0 min 65536), (cnt_cons _ min 65536) by lia.
      rewrite WM by lia. replace (min <=? min) with true by lia. replace (min <=? max) with true by lia. rewrite orb_true_r.
      pose proof (cnt_bound (bget (bitset_set_lenrange ws min (max-min))) 0 min). pose proof (cnt_bound (bget (bitset_set_lenrange ws min (max-min))) (min+1) 65536). lia.
    + intros x Hx. cbn [cmem]. rewrite amem_vals by auto. auto.
  - split; auto. cbn [cok]. split; auto. split; auto.
Qed.
