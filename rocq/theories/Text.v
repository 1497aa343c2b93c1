(** Text: printing a bitmap (roaring_bitmap_printf, Roaring::toString,
    Roaring64Map::toString).  Output is the list of the characters written. *)
From Coq Require Import ZArith List Bool Lia.
From Verif Require Import Base ArrayUtil BitUtil BitsetC ArrayC RunC RunD Convert Containers RArray RBinary RPoint RRange RQuery RStat RShift Spec Spec64 SpecText Obs Derived Map64 Map64P Map64A Map64Q Map64C HistMap.
From Verif Require Hist64.
Import ListNotations.
Local Open Scope Z_scope.
Local Opaque zr.

(** ** Code *)
(** the digits printf("%u"), std::to_string and "%" PRIu64 write (library functions,
    modelled by what they are documented to do; 20 digits are enough for 64 bits) *)
Fixpoint dec (fuel : nat) (v : Z) (acc : list Z) : list Z :=
  match fuel with
  | O => acc
  | S f => let acc' := (48 + v mod 10) :: acc in if v / 10 =? 0 then acc' else dec f (v / 10) acc'
  end.
Definition decimal (v : Z) : list Z := dec 20 v [].
(** containers/array.c:440-449 array_container_printf_as_uint32_array *)
Definition array_container_printf (l : list Z) (base : Z) : list Z :=
  match l with [] => [] | x :: t => decimal (u32 (x + base)) ++ flat_map (fun y => 44 :: decimal (u32 (y + base))) t end.
(** containers/bitset.c:986-1005 bitset_container_printf_as_uint32_array: the inner
    loop; what was printed and iamfirst *)
Fixpoint printf_word (fuel : nat) (w base : Z) (iamfirst : bool) : list Z * bool :=
  match fuel with
  | O => ([], iamfirst)
  | S f =>
    if w =? 0 then ([], iamfirst)
    else
      let head := if iamfirst then decimal (u32 (ctz w + base)) else 44 :: decimal (u32 (ctz w + base)) in
      let '(out, b) := printf_word f (clear_lowest w) base false in (head ++ out, b)
  end.
Fixpoint printf_words (ws : list Z) (base : Z) (iamfirst : bool) : list Z :=
  match ws with
  | [] => []
  | w :: ws' => let '(out, b) := printf_word 64 w base iamfirst in out ++ printf_words ws' (u32 (base + 64)) b
  end.
Definition bitset_container_printf (b : bset) (base : Z) : list Z := printf_words (b_words b) base true.
(** containers/run.c:648-664 run_container_printf_as_uint32_array *)
Definition run_container_printf (r : list run) (base : Z) : list Z :=
  match r with
  | [] => []
  | (v, le) :: t =>
    decimal (u32 (base + v)) ++ flat_map (fun j => 44 :: decimal (u32 (u32 (base + v) + j))) (zr 1 (le + 1)) ++
    flat_map (fun x => flat_map (fun j => 44 :: decimal (u32 (u32 (base + fst x) + j))) (zr 0 (snd x + 1))) t
  end.
(** containers/containers.c:84-100 container_printf_as_uint32_array *)
Definition container_printf (c : container) (base : Z) : list Z :=
  match c with CBit b => bitset_container_printf b base | CArr l => array_container_printf l base | CRun r => run_container_printf r base end.
(** roaring.c:339-352 roaring_bitmap_printf *)
Fixpoint printf_containers (r : bitmap) : list Z :=
  match r with
  | [] => []
  | (k, c) :: t => container_printf c (u32 (Z.shiftl k 16)) ++ (match t with [] => [] | _ => [44] end) ++ printf_containers t
  end.
Definition roaring_bitmap_printf (r : bitmap) : list Z := [123] ++ printf_containers r ++ [125].
(** cpp/roaring.hh:821-842 toString: the state of the callback is str and first_char *)
Definition roaring_toString (r : bitmap) : list Z :=
  let str := if negb (roaring_bitmap_is_empty r)
             then fst (fst (roaring_iterate (fun s v => ((fst s ++ [snd s] ++ decimal v, 44), true)) r ([], 123)))
             else [123] in
  str ++ [125].
(** cpp/roaring64map.hh:1625-1650 printToSink: the loop over the values of one inner
    bitmap; what was written and the separator *)
Fixpoint print_values (k : Z) (vs : list Z) (sep : list Z) : list Z * list Z :=
  match vs with
  | [] => ([], sep)
  | v :: t => let '(out, s) := print_values k t [44] in (sep ++ decimal (uniteBytes k v) ++ out, s)
  end.
Fixpoint print_entries (m : rmap) (sep : list Z) : option (list Z) :=
  match m with
  | [] => Some []
  | (k, b) :: t =>
    match range_for b with
    | Some vs => let '(out, s) := print_values k vs sep in option_map (app out) (print_entries t s)
    | None => None
    end
  end.
(** 1417-1422 toString *)
Definition map_toString (m : rmap) : option (list Z) :=
  match print_entries m [] with Some s => Some ([123] ++ s ++ [125]) | None => None end.

(** ** Proofs: numerals *)
Definition horner (s : list Z) (a : Z) : Z := fold_left (fun a c => 10 * a + (c - 48)) s a.
Lemma dec_spec fuel : forall v acc, 0 <= v -> v < 10 ^ Z.of_nat fuel -> (0 < fuel)%nat -> exists s, dec fuel v acc = s ++ acc /\ s <> [] /\ Forall (fun c => 48 <= c <= 57) s /\
  (forall t, s = 48 :: t -> t = []) /\ horner s 0 = v.
Proof.
  induction fuel as [|f IH]; intros v acc V B F; [lia|]. cbn [dec]. pose proof (Z.mod_pos_bound v 10 ltac:(lia)) as MB. pose proof (Z.div_mod v 10 ltac:(lia)) as DM.
  destruct (Z.eqb_spec (v / 10) 0) as [E|E].
  - exists [48 + v mod 10]. split; auto. split; [discriminate|]. split; [repeat constructor; lia|]. split; [intros t X; now injection X as _ <-|]. unfold horner. cbn [fold_left]. lia.
  - assert (V2 : 0 <= v / 10) by (apply Z.div_pos; lia). destruct f as [|f'].
    { exfalso. apply E. apply Z.div_small. change (10 ^ Z.of_nat 1) with 10 in B. lia. }
    destruct (IH (v / 10) ((48 + v mod 10) :: acc) V2) as (s&ES&N&D&L&H).
    { rewrite Nat2Z.inj_succ, Z.pow_succ_r in B by lia. apply Z.div_lt_upper_bound; lia. } { lia. }
    exists (s ++ [48 + v mod 10]). rewrite ES, <- app_assoc. split; auto. split; [now destruct s|]. split; [apply Forall_app; split; auto; repeat constructor; lia|]. split.
    + intros t X. exfalso. destruct s as [|c s']; [now apply N|]. injection X as -> X. specialize (L s' eq_refl). subst s'. unfold horner in H. cbn [fold_left] in H. lia.
    + unfold horner. rewrite fold_left_app. change (fold_left (fun a c => 10 * a + (c - 48)) s 0) with (horner s 0). rewrite H. cbn [fold_left]. lia.
Qed.
Lemma decimal_numeral v : 0 <= v < 2 ^ 64 -> numeral (decimal v) v.
Proof.
  intros V. destruct (dec_spec 20 v []) as (s&E&N&D&L&H); [lia| |lia|]. { eapply Z.lt_trans; [apply V|reflexivity]. } rewrite app_nil_r in E. unfold decimal. rewrite E. repeat split; auto.
Qed.
Local Opaque decimal.
(** ** Proofs: the text of a list; [f]: is this the first value *)
Fixpoint emit (f : bool) (l : list Z) : list Z :=
  match l with [] => [] | v :: t => (if f then [] else [44]) ++ decimal v ++ emit false t end.
Definition isnil {A} (l : list A) : bool := match l with [] => true | _ => false end.
Lemma emit_app f a b : emit f (a ++ b) = emit f a ++ emit (f && isnil a) b.
Proof.
  revert f. induction a as [|v a IH]; intros f; cbn [app emit isnil]. { now rewrite andb_true_r. }
  rewrite andb_false_r, IH. cbn [andb]. now rewrite <- !app_assoc.
Qed.
Lemma emit_false l : l <> [] -> emit false l = 44 :: emit true l.
Proof. destruct l as [|v t]; [congruence|]. intros _. reflexivity. Qed.
Lemma emit_flat l : emit false l = flat_map (fun v => 44 :: decimal v) l.
Proof. induction l as [|v t IH]; cbn [emit flat_map]; auto. rewrite IH. reflexivity. Qed.
Lemma emit_joined l : emit true l = joined (map decimal l).
Proof.
  induction l as [|v t IH]; [reflexivity|]. cbn [emit map]. destruct t as [|w t]; [cbn; now rewrite app_nil_r|]. rewrite emit_false by discriminate. rewrite IH. reflexivity.
Qed.
Lemma emit_text l : Forall (fun v => 0 <= v < 2 ^ 64) l -> set_text l (123 :: emit true l ++ [125]).
Proof.
  intros F. exists (map decimal l). split; [|now rewrite emit_joined]. induction F as [|v t V F IH]; cbn [map]; constructor; auto. now apply decimal_numeral.
Qed.
(** the text determines the list *)
Lemma split44 a b c d : Forall (fun x => 48 <= x <= 57) a -> Forall (fun x => 48 <= x <= 57) c -> (b = [] \/ exists t, b = 44 :: t) -> (d = [] \/ exists t, d = 44 :: t) -> a ++ b = c ++ d -> a = c /\ b = d.
Proof.
  intros A. revert c. induction A as [|x a X A IH]; intros c C B D E.
  - destruct c as [|y c]; [auto|]. exfalso. inversion_clear C as [|? ? Y _]. cbn in E. destruct B as [->|(t&->)]; [discriminate E|]. injection E as E0 _. lia.
  - destruct c as [|y c].
    + exfalso. cbn in E. destruct D as [->|(t&->)]; [discriminate E|]. injection E as E0 _. lia.
    + inversion_clear C as [|? ? Y C']. injection E as -> E. destruct (IH c C' B D E) as [-> ->]. auto.
Qed.
Lemma joined_cons x t : joined (x :: t) = x ++ match t with [] => [] | _ => 44 :: joined t end.
Proof. destruct t; cbn [joined]; [now rewrite app_nil_r|reflexivity]. Qed.
Lemma joined_inj l1 l2 ds1 ds2 : Forall2 numeral ds1 l1 -> Forall2 numeral ds2 l2 -> joined ds1 = joined ds2 -> l1 = l2.
Proof.
  intros F. revert l2 ds2. induction F as [|s v ds l N F IH]; intros l2 ds2 F2 E; destruct F2 as [|s2 v2 ds2 l2 N2 F2]; auto.
  - exfalso. rewrite joined_cons in E. cbn in E. destruct N2 as (X&_). destruct s2; [now apply X|discriminate E].
  - exfalso. rewrite joined_cons in E. cbn in E. destruct N as (X&_). destruct s; [now apply X|discriminate E].
  - rewrite !joined_cons in E. destruct N as (_&D1&_&H1), N2 as (_&D2&_&H2).
    apply split44 in E as [-> E]; auto; [|destruct ds; eauto|destruct ds2; eauto]. assert (v = v2) by congruence. enough (l = l2) by congruence.
    destruct ds as [|d ds], ds2 as [|d2 ds2]; try discriminate E.
    + inversion F. inversion F2. congruence.
    + injection E as E. apply (IH l2 (d2 :: ds2) F2). exact E.
Qed.
Lemma set_text_inj l1 l2 s : set_text l1 s -> set_text l2 s -> l1 = l2.
Proof.
  intros (d1&F1&E1) (d2&F2&E2). rewrite E1 in E2. injection E2 as E2. apply app_inj_tail in E2 as [E2 _]. exact (joined_inj _ _ _ _ F1 F2 E2).
Qed.

(** ** Proofs: the printers *)
Lemma printf_word_ok fuel : forall w base f, isw w -> (forall i, In i (bits w) -> 0 <= i + base < 2 ^ 32) -> hamming w <= Z.of_nat fuel ->
  printf_word fuel w base f = (emit f (map (fun i => i + base) (bits w)), f && isnil (bits w)).
Proof.
  induction fuel as [|n IH]; intros w base f W B H; cbn [printf_word].
  - assert (bits w = []) as ->. { unfold hamming in H. destruct (bits w); auto. rewrite zlen_cons in H. pose proof (zlen_nonneg l). lia. } cbn. now rewrite andb_true_r.
  - destruct (Z.eqb_spec w 0) as [->|N]. { assert (E : bits 0 = []) by (unfold bits; induction (zr 0 64) as [|x t IHt]; cbn [filter]; rewrite ?Z.bits_0; auto). rewrite E. cbn. now rewrite andb_true_r. }
    rewrite clear_lowest_eq by auto. pose proof (bits_land_pred w W N) as BH. rewrite BH in *. cbn [map emit isnil]. rewrite andb_false_r.
    rewrite IH; [|now apply isw_land|intros i I; apply B; now right|].
    + rewrite u32_small by (apply B; now left). cbn [andb]. generalize (decimal (ctz w + base)) as d. generalize (emit false (map (fun i : Z => i + base) (bits (Z.land w (w - 1))))) as e. intros e d. destruct f; reflexivity.
    + unfold hamming in *. rewrite BH, zlen_cons in H. lia.
Qed.
Lemma printf_words_ok ws : wfw ws -> forall base f, 0 <= base -> base + 64 * zlen ws <= 2 ^ 32 -> printf_words ws base f = emit f (bitset_iterate_seq ws base).
Proof.
  intros W. induction W as [|w ws Hw W IH]; intros base f B0 B1; [reflexivity|]. cbn [printf_words bitset_iterate_seq]. rewrite zlen_cons in B1. pose proof (zlen_nonneg ws).
  rewrite iterate_word_eq by auto. assert (HB : hamming w <= 64) by (pose proof (hamming_bound w); lia). rewrite extract_word_spec by (auto; lia). rewrite printf_word_ok; auto; try lia.
  2:{ intros i I. apply bits_In in I as [I _]. lia. }
  rewrite emit_app. f_equal. replace (isnil (map (fun i => i + base) (bits w))) with (isnil (bits w)) by (destruct (bits w); auto).
  destruct ws as [|w' ws']; [reflexivity|]. rewrite zlen_cons in *. pose proof (zlen_nonneg ws'). rewrite u32_small by lia. apply IH; lia.
Qed.
Lemma container_printf_ok k c : cok c -> 0 <= k < 65536 -> container_printf c (u32 (Z.shiftl k 16)) = emit true (celems k c).
Proof.
  intros D K. rewrite <- container_iterate_celems by auto. rewrite shiftl16. rewrite u32_small by lia. pose proof (container_iterate_celems k c D) as CE. rewrite shiftl16 in CE.
  assert (VB : forall v, In v (container_iterate_seq c (65536 * k)) -> 0 <= v < 2 ^ 32). { intros v I. rewrite CE in I. apply celems_In in I as [I _]. lia. }
  clear CE. destruct c as [a|b|x]; cbn [container_printf container_iterate_seq] in *.
  - unfold array_container_printf. destruct a as [|v t]; [reflexivity|]. cbn [map emit app]. rewrite u32_small by (apply VB; now left). f_equal. rewrite emit_flat.
    assert (VT : forall y, In y t -> 0 <= y + 65536 * k < 2 ^ 32) by (intros y I; apply VB; right; apply in_map_iff; eauto). clear - VT.
    induction t as [|y t IH]; [reflexivity|]. cbn [flat_map map]. rewrite u32_small by (apply VT; now left). rewrite IH by (intros z I; apply VT; now right). reflexivity.
  - unfold bitset_container_printf. destruct D as (((W1&W2)&_)&_). apply printf_words_ok; [assumption|lia|]. rewrite ?W1, ?W2. lia.
  - assert (R0 : forall b v le f, 0 <= b + v -> b + v + le < 2 ^ 32 -> 0 <= le -> flat_map (fun j => 44 :: decimal (u32 (u32 (b + v) + j))) (zr f (le + 1)) = emit false (map (fun j => b + v + j) (zr f (le + 1))) \/ f < 0).
    { intros b v le f N1 N2 N3. destruct (Z_lt_ge_dec f 0) as [|F]; [now right|left]. rewrite emit_flat. assert (ZI : forall j, In j (zr f (le + 1)) -> 0 <= j <= le) by (intros j J; apply zr_In in J; lia).
      revert ZI. generalize (zr f (le + 1)) as js. induction js as [|j js IH]; intros ZI; [reflexivity|]. cbn [flat_map map]. specialize (ZI j (or_introl eq_refl)) as J. rewrite (u32_small (b + v)) at 1 by lia. rewrite u32_small by lia.
      rewrite IH by (intros; apply ZI; now right). reflexivity. }
    assert (RB : forall y, In y x -> 0 <= fst y /\ 0 <= snd y /\ fst y + snd y < 65536).
    { destruct D as (D&_). clear - D. intros [v le] I. destruct (rok_In 0 x v le D I) as (?&?&?). cbn [fst snd]. lia. }
    clear VB D. unfold run_container_printf, run_container_to_uint32_array. destruct x as [|[v le] t]; [reflexivity|]. cbn [flat_map fst snd]. rewrite emit_app.
    destruct (RB (v, le) (or_introl eq_refl)) as (V1&V2&V3). cbn [fst snd] in *. rewrite (zr_cons 0 (le + 1)) by lia. cbn [map emit app isnil andb]. replace (65536 * k + v + 0) with (65536 * k + v) by lia. rewrite u32_small at 1 by lia.
    rewrite <- app_assoc. f_equal. f_equal. { destruct (R0 (65536 * k) v le 1) as [E|E]; try lia. exact E. }
    assert (RT : forall y, In y t -> 0 <= fst y /\ 0 <= snd y /\ fst y + snd y < 65536) by (intros y I; apply RB; now right). clear RB. induction t as [|[v2 l2] t IH]; [reflexivity|]. cbn [flat_map fst snd]. rewrite emit_app. cbn [andb].
    destruct (RT (v2, l2) (or_introl eq_refl)) as (W1&W2&W3). cbn [fst snd] in *. f_equal. { destruct (R0 (65536 * k) v2 l2 0) as [E|E]; try lia. exact E. } apply IH. intros y I. apply RT. now right.
Qed.
Lemma celems_ne k c : cok c -> celems k c <> [].
Proof.
  intros D E. destruct (km_cne k c [] D) as (x&X&M). rewrite km_head in M. assert (I : In (65536 * k + x) (celems k c)) by (apply celems_In; split; [lia|]; now replace (65536 * k + x - 65536 * k) with x by lia).
  rewrite E in I. destruct I.
Qed.
Lemma printf_containers_ok r lo : gok cok lo r -> 0 <= lo -> printf_containers r = emit true (elems r).
Proof.
  revert lo. induction r as [|[k c] t IH]; intros lo B L; [reflexivity|]. apply gok_cons in B as (H1&H2&H3). cbn [printf_containers]. rewrite container_printf_ok by (auto; lia). rewrite elems_cons, emit_app. f_equal.
  rewrite (IH (k + 1)) by (auto; lia). pose proof (celems_ne k c H2) as N. destruct (celems k c) as [|y l]; [congruence|]. cbn [isnil andb]. destruct t as [|[k2 c2] t]; [reflexivity|].
  rewrite emit_false; [reflexivity|]. apply gok_cons in H3 as (_&D2&_). rewrite elems_cons. pose proof (celems_ne k2 c2 D2) as N2. destruct (celems k2 c2); [congruence|discriminate].
Qed.
Lemma printf_ok r : bok r -> roaring_bitmap_printf r = 123 :: emit true (elems r) ++ [125].
Proof. intros B. unfold roaring_bitmap_printf. now rewrite (printf_containers_ok r 0) by (auto; lia). Qed.
Lemma callback_ok l : forall s, l <> [] -> fst (fst (call_until (fun s v => ((fst s ++ [snd s] ++ decimal v, 44), true)) l s)) = fst s ++ [snd s] ++ emit true l.
Proof.
  induction l as [|v t IH]; intros [s c] N; [congruence|]. cbn [call_until fst snd]. destruct t as [|w t].
  - cbn [call_until fst emit app]. now rewrite app_nil_r.
  - rewrite IH by discriminate. cbn [fst snd]. cbn [emit app]. rewrite <- !app_assoc. reflexivity.
Qed.
Lemma toString_ok r : bok r -> roaring_toString r = 123 :: emit true (elems r) ++ [125].
Proof.
  intros B. unfold roaring_toString. destruct (roaring_bitmap_is_empty r) eqn:E; cbn [negb].
  - unfold roaring_bitmap_is_empty in E. destruct r; [reflexivity|]. exfalso. rewrite zlen_cons in E. pose proof (zlen_nonneg r). apply Z.eqb_eq in E. lia.
  - rewrite (iterate_members _ r (mem r) (elems r)) by (auto using bok_den; apply elems_lists; now apply bok_den). rewrite callback_ok.
    + reflexivity.
    + intros N. destruct r as [|[k c] t]; [discriminate E|]. apply gok_cons in B as (_&D&_). rewrite elems_cons in N. apply app_eq_nil in N as [N _]. exact (celems_ne k c D N).
Qed.
Lemma print_values_ok k vs : 0 <= k < 2 ^ 32 -> Forall (fun v => 0 <= v < 2 ^ 32) vs -> forall f,
  print_values k vs (if f : bool then [] else [44]) = (emit f (map (fun v => k * 2 ^ 32 + v) vs), if f && isnil vs then [] else [44]).
Proof.
  intros K F. induction F as [|v t V F IH]; intros f; cbn [print_values map emit isnil]; [now rewrite andb_true_r|]. specialize (IH false). cbn [andb] in IH. rewrite IH. rewrite andb_false_r. now rewrite unite_eq by (auto; lia).
Qed.
Lemma print_entries_ok m : mokm m -> forall f : bool, print_entries m (if f then [] else [44]) = Some (emit f (elems64 m)).
Proof.
  induction m as [|[k b] t IH]; intros H f; [reflexivity|]. destruct (mokm_tail k b t H) as (Ot & K & B & A & C). cbn [print_entries]. rewrite range_for_spec by auto.
  unfold key32 in K. rewrite print_values_ok; [|lia|apply Forall_forall; exact (proj2 (elems_bok b B))]. rewrite IH by auto. unfold elems64. cbn [flat_map fst snd option_map]. rewrite emit_app. do 3 f_equal. destruct (elems b); reflexivity.
Qed.
Lemma map_toString_ok m : mokm m -> map_toString m = Some (123 :: emit true (elems64 m) ++ [125]).
Proof. intros H. unfold map_toString. now rewrite (print_entries_ok m H true). Qed.

(** ** The theorems *)
Lemma printf_text r P l : denotes r P -> lists P l -> set_text l (roaring_bitmap_printf r) /\ roaring_toString r = roaring_bitmap_printf r.
Proof.
  intros D L. pose proof (den_bok _ _ D) as B. rewrite (lists_unique P l (elems r) L (elems_lists r P D)). rewrite toString_ok, printf_ok by auto. split; auto. apply emit_text. apply Forall_forall. intros v I.
  destruct (elems_bok r B) as [_ X]. specialize (X v I). lia.
Qed.
Lemma map_text m P l : denotesN m P -> lists64 P l -> exists s, map_toString m = Some s /\ set_text l s.
Proof.
  intros D L. apply denotesN_iff in D. exists (123 :: emit true (elems64 m) ++ [125]). split; [apply map_toString_ok; eapply mokm_of; eauto|]. pose proof (elems64_lists m P D) as L2.
  assert (l = elems64 m) as ->. { apply (Hist64.lists64_unique P); auto. } apply emit_text. apply Forall_forall. intros v I. apply L2 in I as [I _]. exact I.
Qed.
Lemma text_equal r1 r2 P1 P2 : denotes r1 P1 -> denotes r2 P2 -> (roaring_bitmap_printf r1 = roaring_bitmap_printf r2 <-> forall v, 0 <= v < 2 ^ 32 -> P1 v = P2 v).
Proof.
  intros D1 D2. destruct (printf_text r1 P1 (elems r1) D1 (elems_lists r1 P1 D1)) as [T1 _]. destruct (printf_text r2 P2 (elems r2) D2 (elems_lists r2 P2 D2)) as [T2 _]. split.
  - intros E v V. rewrite E in T1. pose proof (set_text_inj _ _ _ T1 T2) as EE. pose proof (elems_lists r1 P1 D1) as [_ M1]. pose proof (elems_lists r2 P2 D2) as [_ M2]. rewrite EE in M1.
    destruct (P1 v) eqn:A, (P2 v) eqn:C; auto; exfalso. { assert (X : In v (elems r2)) by (apply M1; auto). apply M2 in X as [_ X]. congruence. } { assert (X : In v (elems r2)) by (apply M2; auto). apply M1 in X as [_ X]. congruence. }
  - intros H. rewrite !printf_ok by (eapply den_bok; eauto). do 3 f_equal. apply (lists_unique P1); [now apply elems_lists|]. apply elems_lists. apply (den_ext _ P2); auto. intros v V. symmetry. auto.
Qed.
