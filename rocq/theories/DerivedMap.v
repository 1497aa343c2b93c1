(** DerivedMap: the statements of PropsMap64, proved from the lemmas about the C++ 64-bit map. *)
From Coq Require Import ZArith List Bool Lia Sorting.Sorted.
From Verif Require Import Base ArrayUtil BitUtil BitsetC ArrayC RunC RunD Convert Containers RArray RBinary RPoint RRange RQuery RStat Iter Bytes Serial SerialP Spec SpecI Spec64 SpecMap FormatSpec FormatSpec64 Obs Derived Map64 Map64P Map64A Map64Q Map64C Map64I Map64S Map64T Map64U Map64N HistMap.
From Verif Require Import R64S.
From Verif Require IterP DerivedI Hist64 Derived64 Derived64S DerivedS R64.
Import ListNotations.
Local Open Scope Z_scope.
Local Opaque zr.

Notation len l := (Z.of_nat (length l)).
(** ** Histories *)
Lemma n_history st S tr : (forall i, denotesN (st i) (S i)) -> legalN (map fst tr) S ->
  exists st' outs, execN tr st = Some (st', outs) /\ (forall i, denotesN (st' i) (spec_runN (map fst tr) S i)) /\ agreesN (map fst tr) S outs.
Proof.
  intros H L. destruct (execN_holds tr st S) as (st' & outs & E & H' & A); auto; [intros i; now apply denotesN_iff|]. exists st', outs. split; auto. split; auto. intros i. now apply denotesN_iff.
Qed.
Lemma n_of_bitmap r P : denotes r P -> denotesN (map_of_roaring r) (fun v => (v <? 2^32) && P v).
Proof. intros D. apply denotesN_iff. now apply mden_map_of_roaring. Qed.
(** two maps for one set may differ (empty inner bitmaps, container types), but no query sees it *)
Lemma n_new i : denotesN (empty_heapN i) zempty. Proof. apply denotesN_iff, empty_nholds. Qed.

(** ** Iterators *)
Fixpoint mi_go (m : rmap) (i : miter) (cs : list mstep) : option miter :=
  match cs with [] => Some i | c :: cs => let! (j, _) := mi_step m i c in mi_go m j cs end.
Lemma go_spec m cs : mokm m -> (no_empty m \/ forallb plain cs = true) -> forall i p, mat m i p -> mlegal (elems64 m) p cs -> exists j, mi_go m i cs = Some j /\ mat m j (mfinal (elems64 m) p cs).
Proof.
  intros O. induction cs as [|c cs IH]; intros NE i p M K; [exists i; auto|]. cbn [mi_go mfinal]. destruct K as (K & KS). destruct (step_spec m i p c O M) as (j & -> & Mj); auto.
  { destruct NE as [NE|NE]; auto. cbn [forallb] in NE. apply andb_true_iff in NE. right. apply NE. }
  cbn [obind]. apply IH; auto. destruct NE as [NE|NE]; auto. cbn [forallb] in NE. apply andb_true_iff in NE. right. apply NE.
Qed.
Lemma n_iterate_history tr st outs i l cs : legalN (map fst tr) (fun _ => zempty) -> execN tr empty_heapN = Some (st, outs) -> lists64 (spec_runN (map fst tr) (fun _ => zempty) i) l ->
  (mlegal l 0 cs -> (let! b := map_begin (st i) in mi_run (st i) b cs) = Some (mcursor l 0 cs)) /\
  (mlegal l (len_of l) cs -> mi_run (st i) (map_end (st i)) cs = Some (mcursor l (len_of l) cs)).
Proof.
  intros L E LL. destruct (execN_holds tr _ _ empty_nholds L) as (st' & outs' & E' & H & _). rewrite E' in E. injection E as -> ->. pose proof (execN_tight tr _ _ st outs empty_nholds L empty_tight E') as T.
  apply (mden_run (st i) _ l cs (H i) LL). left. apply tight_no_empty; auto. apply (H i).
Qed.
Lemma n_iterate_any m P l cs : denotesN m P -> lists64 P l -> forallb plain cs = true ->
  (mlegal l 0 cs -> (let! b := map_begin m in mi_run m b cs) = Some (mcursor l 0 cs)) /\
  (mlegal l (len_of l) cs -> mi_run m (map_end m) cs = Some (mcursor l (len_of l) cs)).
Proof. intros D L E. apply (mden_run m P l cs); auto. now apply denotesN_iff. Qed.
Lemma n_iterate_shrunk m P l cs : denotesN m P -> lists64 P l -> let m' := map_shrinkToFit m in denotesN m' P /\
  (mlegal l 0 cs -> (let! b := map_begin m' in mi_run m' b cs) = Some (mcursor l 0 cs)) /\
  (mlegal l (len_of l) cs -> mi_run m' (map_end m') cs = Some (mcursor l (len_of l) cs)).
Proof.
  intros D L. cbv zeta. apply denotesN_iff in D. apply mden_shrinkToFit in D. split; [now apply denotesN_iff|]. apply (mden_run _ P l cs); auto. left. apply shrink_no_empty.
Qed.
(** an image with an empty bucket, as other writers may produce: {7} and an empty bucket at 1 *)
Definition hollow : list Z := [2;0;0;0;0;0;0;0; 0;0;0;0; 58;48;0;0; 1;0;0;0; 0;0;0;0; 16;0;0;0; 7;0; 1;0;0;0; 58;48;0;0; 0;0;0;0].
Definition hollow_map : rmap := match map_readSafe hollow (len hollow) with Ok m => m | _ => [] end.
Lemma hollow_read : map_readSafe hollow (len hollow) = Ok hollow_map. Proof. vm_compute. reflexivity. Qed.
Lemma hollow_eq : hollow_map = [(0, [(0, CArr [7])]); (1, [])]. Proof. vm_compute. reflexivity. Qed.
Lemma hollow_den : denotesN hollow_map (zlist [7]).
Proof.
  apply denotesN_iff. rewrite hollow_eq. apply (mden_put [(0, [(0, CArr [7])])] (zlist [7]) (zlist [7]) 1 []).
  - change [(0, [(0, CArr [7])])] with (map_add [] 7). eapply mden_ext; [apply mden_add; [apply mden_nil|unfold val64; lia]|]. intros v V. unfold zadd, zlist, zempty. cbn [existsb orb]. now rewrite orb_false_r.
  - unfold key32. lia.
  - eapply den_ext; [exact den_new|]. intros v V. unfold zempty, half, zlist. cbn [existsb]. unfold val32 in V. replace (1 * 2^32 + v =? 7) with false by lia. reflexivity.
  - intros h K N v V. reflexivity.
Qed.
Lemma lists_one x : val64 x -> lists64 (zlist [x]) [x].
Proof.
  intros V. split; [repeat constructor|]. intros v. unfold zlist. cbn [In existsb]. rewrite orb_false_r. split; [intros [<-|[]]; split; auto; apply Z.eqb_refl|intros (_ & E); apply Z.eqb_eq in E; auto].
Qed.
Lemma n_iterate_refuted : exists out m P l, map_readSafe out (len out) = Ok m /\ denotesN m P /\ lists64 P l /\
  (exists cs, mlegal l (len_of l) cs /\ cs = [SMove 8] /\ mi_run m (map_end m) cs <> Some (mcursor l (len_of l) cs)) /\
  (exists cs, mlegal l (len_of l) cs /\ cs = [SPostDec] /\ mi_run m (map_end m) cs <> Some (mcursor l (len_of l) cs)).
Proof.
  exists hollow, hollow_map, (zlist [7]), [7]. split; [exact hollow_read|]. split; [exact hollow_den|]. split; [apply lists_one; unfold val64; lia|]. split.
  - exists [SMove 8]. split; [split; [unfold mstep_ok, val64; lia|exact Logic.I]|]. split; [reflexivity|]. vm_compute. discriminate.
  - exists [SPostDec]. split; [split; [vm_compute; reflexivity|exact Logic.I]|]. split; [reflexivity|]. vm_compute. discriminate.
Qed.

(** ** Comparing iterators *)
(** two iterators of one map, each moved from begin() or end() *)
Definition start (m : rmap) (at_end : bool) : option miter := if at_end then Some (map_end m) else map_begin m.
Definition start_pos (l : list Z) (at_end : bool) : Z := if at_end then len_of l else 0.
Lemma start_mat m e : mokm m -> exists i, start m e = Some i /\ mat m i (start_pos (elems64 m) e).
Proof.
  intros O. destruct e; cbn [start start_pos]; [|exact (begin_spec m O)]. exists (map_end m). split; [reflexivity|]. now split.
Qed.
Lemma n_compare tr st outs r l e1 cs1 e2 cs2 : legalN (map fst tr) (fun _ => zempty) -> execN tr empty_heapN = Some (st, outs) -> lists64 (spec_runN (map fst tr) (fun _ => zempty) r) l ->
  mlegal l (start_pos l e1) cs1 -> mlegal l (start_pos l e2) cs2 ->
  let p := mfinal l (start_pos l e1) cs1 in let q := mfinal l (start_pos l e2) cs2 in
  exists i j, (let! b := start (st r) e1 in mi_go (st r) b cs1) = Some i /\ (let! b := start (st r) e2 in mi_go (st r) b cs2) = Some j /\
    mi_deref i = seen64 l p /\ mi_deref j = seen64 l q /\
    mi_lt i j = Some (p <? q) /\ mi_le i j = Some (p <=? q) /\ mi_gt i j = Some (p >? q) /\ mi_ge i j = Some (p >=? q) /\
    (p < len_of l \/ q = len_of l -> mi_eq i j = Some (p =? q) /\ mi_ne i j = Some (negb (p =? q))).
Proof.
  intros L E LL K1 K2 p q. destruct (execN_holds tr _ _ empty_nholds L) as (st' & outs' & E' & H & _). rewrite E' in E. injection E as -> ->. pose proof (execN_tight tr _ _ st outs empty_nholds L empty_tight E') as T.
  assert (O : mokm (st r)) by exact (mokm_of _ _ (H r)). assert (NE : no_empty (st r)) by (apply tight_no_empty; auto; apply (H r)).
  assert (l = elems64 (st r)) as -> by exact (Hist64.lists64_unique _ _ _ LL (elems64_lists _ _ (H r))).
  destruct (start_mat (st r) e1 O) as (b1 & -> & M1). destruct (start_mat (st r) e2 O) as (b2 & -> & M2). cbn [obind].
  destruct (go_spec (st r) cs1 O (or_introl NE) b1 _ M1 K1) as (i & -> & Mi). destruct (go_spec (st r) cs2 O (or_introl NE) b2 _ M2 K2) as (j & -> & Mj). exists i, j. split; auto. split; auto.
  fold p in Mi. fold q in Mj. rewrite (mat_deref _ i p O Mi), (mat_deref _ j q O Mj). split; auto. split; auto.
  destruct (compare_spec64 _ i j p q O Mi Mj) as (A & B & C & D & EQ). split; auto. split; auto. split; auto. split; auto.
  destruct (mat_bounds _ i p O Mi) as (R1 & N1). destruct (mat_bounds _ j q O Mj) as (R2 & N2). intros X. apply EQ. change (len_of (elems64 (st r))) with (zlen (elems64 (st r))) in X. destruct X as [X|X]; [left; intros Y; apply N1 in Y; lia|right; tauto].
Qed.
Lemma n_compare_refuted : exists m P l, denotesN m P /\ lists64 P l /\ l = [7] /\ exists b, map_begin m = Some b /\
  mi_deref b = Some 7 /\ mi_eq (map_end m) b = None /\ mi_ne (map_end m) b = None /\ mi_eq b (map_end m) = Some false /\ mi_ne b (map_end m) = Some true.
Proof.
  exists (map_add [] 7), (zlist [7]), [7]. split.
  { apply denotesN_iff. eapply mden_ext; [apply mden_add; [apply mden_nil|unfold val64; lia]|]. intros v V. unfold zadd, zlist, zempty. cbn [existsb orb]. now rewrite orb_false_r. }
  split; [apply lists_one; unfold val64; lia|]. split; auto. set (b := map_begin (map_add [] 7)). vm_compute in b. eexists. split; [reflexivity|]. repeat split.
Qed.

(** ** Enumeration *)
Fixpoint visit {S : Type} (f : S -> Z -> S * bool) (l : list Z) (s : S) : S * bool :=
  match l with [] => (s, true) | v :: t => let (s', go) := f s v in if go then visit f t s' else (s', false) end.
Lemma visit_call {S : Type} (f : S -> Z -> S * bool) l : forall s, call_until f l s = visit f l s.
Proof. induction l as [|v t IH]; intros s; cbn [call_until visit]; auto. Qed.
Lemma n_enumerate (S : Type) (f : S -> Z -> S * bool) (s : S) m P : denotesN m P -> exists l, lists64 P l /\ map_toUint64Array m = Some l /\ map_iterate f m s = visit f l s.
Proof.
  intros D. apply denotesN_iff in D. pose proof (mokm_of _ _ D) as O. exists (elems64 m). split; [now apply elems64_lists|]. split; [now apply toUint64Array_spec|]. rewrite iterate_spec by auto. apply visit_call.
Qed.

(** ** Serialization *)
Lemma n_round_trip m P : denotesN m P -> exists out, bytes out /\ map_getSizeInBytes true m = len out /\
  (forall buf, len out <= len buf -> map_write true m buf = Some (out ++ skipn (length out) buf, len out)) /\
  (forall post, bytes post -> exists m', map_read true (out ++ post) = Ok m' /\ denotesN m' P) /\
  (forall post n, len out <= n < 2^64 -> exists m', map_readSafe (out ++ post) n = Ok m' /\ denotesN m' P) /\
  (forall post n, 0 <= n < len out -> n < 2^64 -> map_readSafe (out ++ post) n = Fail).
Proof.
  intros D. apply denotesN_iff in D. pose proof (mokm_of _ _ D) as O. exists (le 8 (zlen m) ++ gbytes m). rewrite <- ebytes_portable. destruct (mok_parts m O) as (F & _).
  assert (SZ : map_getSizeInBytes true m = zlen (le 8 (zlen m) ++ ebytes true m)) by (rewrite size_bytes by auto; now rewrite zlen_app, le_zlen).
  pose proof (zlen_nonneg (le 8 (zlen m) ++ ebytes true m)) as NN. fold (zlen (le 8 (zlen m) ++ ebytes true m)). rewrite <- SZ in *. split; [apply bytes_app; split; [apply le_bytes|now apply ebytes_bytes]|]. split; auto.
  split; [intros buf L; now apply write_bytes|]. rewrite ebytes_portable. split; [|split].
  - intros post B. destruct (read_portable m P post D B) as (m' & -> & D' & _). exists m'. split; auto. now apply denotesN_iff.
  - intros post n N. rewrite readSafe_back; auto; [|lia]. replace (n <? _) with false by lia. exists m. split; auto. now apply denotesN_iff.
  - intros post n N N'. rewrite readSafe_back; auto; [|lia]. now replace (n <? _) with true by lia.
Qed.
Lemma n_format m P buf out n : denotesN m P -> map_write true m buf = Some (out, n) -> n <= len buf -> n < 2^32 -> map_getSizeInBytes true m = n -> portable_format64 P (firstn (Z.to_nat n) out).
Proof.
  intros D E LB LN SZ. apply denotesN_iff in D. pose proof (mokm_of _ _ D) as O. rewrite write_bytes in E by (auto; rewrite SZ; exact LB). set (w := le 8 (zlen m) ++ ebytes true m) in *. set (sz := map_getSizeInBytes true m) in *. assert (X : forall (a b : list Z) (c d : Z), Some (a, c) = Some (b, d) -> b = a) by congruence. apply X in E. subst out. clear X.
  assert (n = zlen w) as -> by (rewrite <- SZ; unfold sz, w; rewrite size_bytes by auto; now rewrite zlen_app, le_zlen). rewrite (firstn_app_l (Z.to_nat (zlen w))) by (unfold zlen; lia). apply map_format; auto. fold sz. lia.
Qed.
Lemma n_foreign P out post n : portable_format64 P out -> len out < 2^32 -> bytes post -> len out <= n < 2^64 ->
  (exists m, map_readSafe (out ++ post) n = Ok m /\ denotesN m P /\ map_getSizeInBytes true m = len out) /\ exists m, map_read true (out ++ post) = Ok m /\ denotesN m P.
Proof.
  intros F L B N. destruct (format_map P out F L) as (m & D & -> & SZ). pose proof (mokm_of _ _ D) as O. split.
  - exists m. rewrite readSafe_back by (auto; lia). rewrite SZ. unfold zlen at 1. replace (n <? _) with false by lia. split; auto. split; auto. now apply denotesN_iff.
  - destruct (read_portable m P post D B) as (m' & -> & D' & _). exists m'. split; auto. now apply denotesN_iff.
Qed.

(** ** readSafe on untrusted bytes *)
Lemma n_safe_partial a b : bytes a -> len a < 2^64 -> (forall i, ~ (nth i a 0 = 59 /\ nth (S i) a 0 = 48)) \/ (exists n, rdv 8 a 0 = Some n /\ n <= 1) ->
  map_readSafe (a ++ b) (len a) = map_readSafe a (len a) /\ map_readSafe a (len a) <> UB.
Proof.
  intros BA L [NC|(n & R & N)]; [apply readSafe_any; auto; unfold zlen; lia|apply (readSafe_one a b (len a) n); auto; unfold zlen; lia].
Qed.
Definition short_image : list Z := [2;0;0;0;0;0;0;0; 0;0;0;0; 59;48;0;0; 0; 0;0;0;0; 5;0].
Lemma n_safe_refuted : exists a, bytes a /\ len a < 2^64 /\ map_readSafe a (len a) = UB.
Proof.
  exists short_image. split; [unfold short_image; repeat (constructor; [lia|]); constructor|]. split; [vm_compute; reflexivity|]. vm_compute. reflexivity.
Qed.

Lemma self_den b : bok b -> denotes b (roaring_bitmap_contains b).
Proof. intros B. split; [now apply valid_bok|auto]. Qed.
(** ** The native form *)
Lemma n_native m P : denotesN m P -> exists out, bytes out /\ map_getSizeInBytes false m = len out /\
  (forall buf, len out <= len buf -> map_write false m buf = Some (out ++ skipn (length out) buf, len out)) /\
  ((forall k b, In (k, b) m -> (forall p, In p b -> is_run (snd p) = false) \/ roaring_bitmap_portable_size_in_bytes b < roaring_bitmap_get_cardinality b * 4 + 4) ->
   forall post, bytes post -> exists m', map_read false (out ++ post) = Ok m' /\ denotesN m' P).
Proof.
  intros D. apply denotesN_iff in D. pose proof (mokm_of _ _ D) as O. exists (le 8 (zlen m) ++ ebytes false m). destruct (mok_parts m O) as (F & _).
  assert (SZ : map_getSizeInBytes false m = zlen (le 8 (zlen m) ++ ebytes false m)) by (rewrite size_bytes by auto; now rewrite zlen_app, le_zlen).
  fold (zlen (le 8 (zlen m) ++ ebytes false m)). rewrite <- SZ. split; [apply bytes_app; split; [apply le_bytes|now apply ebytes_bytes]|]. split; auto.
  split; [intros buf L; now apply write_bytes|]. intros H post BP. destruct (read_back false m P post D) as (m' & -> & D' & _); auto.
  - apply Forall_forall. intros [k b] I. cbn [snd]. assert (B : bok b) by exact (proj2 (mok_in m k b O I)). destruct (H k b I) as [R|R]; [now apply rereads_runless|now apply rereads_native].
  - exists m'. split; auto. now apply denotesN_iff.
Qed.
Lemma n_native_flat m P : denotesN m P -> let m' := fst (map_removeRunCompression m) in denotesN m' P /\ exists out, map_getSizeInBytes false m' = len out /\
  (forall buf, len out <= len buf -> map_write false m' buf = Some (out ++ skipn (length out) buf, len out)) /\
  forall post, bytes post -> exists m2, map_read false (out ++ post) = Ok m2 /\ denotesN m2 P.
Proof.
  intros D m'. assert (D' : denotesN m' P) by (apply denotesN_iff; apply mden_removeRunCompression; now apply denotesN_iff). split; auto. destruct (n_native m' P D') as (out & _ & A & B & C). exists out. split; auto. split; auto. apply C. intros k b I. left. unfold m', map_removeRunCompression, map_each in I. cbn [fst] in I. apply in_map_iff in I as ([k0 b0] & E & I0). cbn [fst snd] in E.
  apply denotesN_iff in D. assert (B0 : bok b0) by exact (proj2 (mok_in m k0 b0 (mokm_of _ _ D) I0)). assert (b = fst (roaring_bitmap_remove_run_compression b0)) as -> by congruence. destruct (remove_run_compression_effect b0 (roaring_bitmap_contains b0)) as (X & _); [now apply self_den|]. rewrite Forall_forall in X. exact X.
Qed.
Definition jagged : rmap := map_add (fold_left map_remove [1;3;5;7;9;11;13;15;17;19] (map_addRangeClosed32 [] 0 20)) (2^32).
Definition jagged_image : list Z := match map_write false jagged (repeat 0 74) with Some (o, _) => o | None => [] end.
Lemma n_native_refuted : exists m P buf out, denotesN m P /\ map_getSizeInBytes false m = len buf /\ map_write false m buf = Some (out, len out) /\ map_read false out = Fail.
Proof.
  assert (X : exists P, mden jagged P). { eexists. unfold jagged. apply mden_add; [|unfold val64; lia]. cbn [fold_left]. repeat (apply mden_remove; [|unfold val64; lia]). apply mden_add_range32; [apply mden_nil|unfold val32; lia|unfold val32; lia]. }
  destruct X as (P & D). exists jagged, P, (repeat 0 74), jagged_image. split; [now apply denotesN_iff|]. vm_compute. auto.
Qed.

(** ** The results of runOptimize and removeRunCompression *)
Lemma fold_all {A} (f : A -> bool) l : forall acc, fold_left (fun p e => f e && p) l acc = forallb f l && acc.
Proof. induction l as [|a l IH]; intros acc; cbn [fold_left forallb]; auto. rewrite IH. destruct (f a), (forallb f l), acc; reflexivity. Qed.
Lemma n_run_optimize m P : denotesN m P -> let m' := fst (map_runOptimize m) in denotesN m' P /\ (snd (map_runOptimize m) = true <-> forall k b, In (k, b) m' -> exists p, In p b /\ is_run (snd p) = true).
Proof.
  intros D m'. apply denotesN_iff in D. pose proof (mokm_of _ _ D) as O. split; [apply denotesN_iff; now apply mden_runOptimize|]. unfold m', map_runOptimize, map_each. cbn [fst snd]. rewrite fold_all, andb_true_r, forallb_forall. split.
  - intros H k b I. apply in_map_iff in I as ([k0 b0] & E & I0). cbn [fst snd] in E. specialize (H _ I0). cbn [snd] in H. assert (b = fst (roaring_bitmap_run_optimize b0)) as -> by congruence. apply (run_optimize_flag b0 (roaring_bitmap_contains b0)); auto. apply self_den. exact (proj2 (mok_in m k0 b0 O I0)).
  - intros H [k b] I. cbn [snd]. apply (run_optimize_flag b (roaring_bitmap_contains b)); [apply self_den; exact (proj2 (mok_in m k b O I))|]. apply (H k). apply in_map_iff. exists (k, b). auto.
Qed.
Lemma n_remove_runs m P : denotesN m P -> let m' := fst (map_removeRunCompression m) in denotesN m' P /\ (forall k b p, In (k, b) m' -> In p b -> is_run (snd p) = false) /\
  (snd (map_removeRunCompression m) = true <-> forall k b, In (k, b) m -> exists p, In p b /\ is_run (snd p) = true).
Proof.
  intros D m'. apply denotesN_iff in D. pose proof (mokm_of _ _ D) as O. split; [apply denotesN_iff; now apply mden_removeRunCompression|].
  assert (EF : forall k b, In (k, b) m -> Forall (fun p => is_run (snd p) = false) (fst (roaring_bitmap_remove_run_compression b)) /\ (snd (roaring_bitmap_remove_run_compression b) = true <-> exists p, In p b /\ is_run (snd p) = true)).
  { intros k b I. apply (remove_run_compression_effect b (roaring_bitmap_contains b)). apply self_den. exact (proj2 (mok_in m k b O I)). }
  unfold m', map_removeRunCompression, map_each. cbn [fst snd]. split.
  - intros k b p I J. apply in_map_iff in I as ([k0 b0] & E & I0). cbn [fst snd] in E. destruct (EF k0 b0 I0) as (X & _). assert (b = fst (roaring_bitmap_remove_run_compression b0)) as -> by congruence. rewrite Forall_forall in X. now apply X.
  - rewrite fold_all, andb_true_r, forallb_forall. split; [intros H k b I; apply (EF k b I); exact (H _ I)|intros H [k b] I; apply (EF k b I); now apply (H k)].
Qed.
Definition has_runs (m : rmap) : bool := existsb (fun e => existsb (fun p => is_run (snd p)) (snd e)) m.
Definition mixed_runs : rmap := map_add (map_addRangeClosed32 [] 0 100) (2^32).
Lemma mixed_den : exists P, denotesN mixed_runs P.
Proof. eexists. apply denotesN_iff. unfold mixed_runs. apply mden_add; [|unfold val64; lia]. apply mden_add_range32; [apply mden_nil|unfold val32; lia|unfold val32; lia]. Qed.
Lemma n_run_flag_refuted :
  (exists m P, denotesN m P /\ snd (map_runOptimize m) = true /\ has_runs (fst (map_runOptimize m)) = false) /\
  (exists m P, denotesN m P /\ snd (map_runOptimize m) = false /\ has_runs (fst (map_runOptimize m)) = true) /\
  (exists m P, denotesN m P /\ snd (map_removeRunCompression m) = true /\ fst (map_removeRunCompression m) = m) /\
  (exists m P, denotesN m P /\ snd (map_removeRunCompression m) = false /\ fst (map_removeRunCompression m) <> m).
Proof.
  destruct mixed_den as (P & D). assert (E : denotesN [] zempty) by (apply denotesN_iff, mden_nil). split; [exists [], zempty; split; auto; vm_compute; auto|]. split; [exists mixed_runs, P; split; auto; vm_compute; auto|]. split; [exists [], zempty; split; auto; vm_compute; auto|].
  exists mixed_runs, P. split; auto. split; [vm_compute; reflexivity|]. vm_compute. discriminate.
Qed.

(** ** select and getIndex outside the specified arguments *)
Lemma n_select_refuted : exists m P k n, denotesN m P /\ has_card64 P n /\ 0 <= k < n /\ map_select m k = Fail.
Proof.
  exists (map_of_roaring all_values_flat), (fun v => (v <? 2^32) && zfull v), (2^32 - 1), (2^32). split; [apply n_of_bitmap; exact all_values_flat_denotes|]. split; [|split; [lia|]].
  - apply Hist64.has_card64_cnt. rewrite (cnt_app _ 0 (2^32) (2^64)) by lia. rewrite cnt_full, cnt_none; try lia; intros x X; unfold zfull; lia.
  - change (map_of_roaring all_values_flat) with [(0, all_values_flat)]. cbn [map_select]. assert (C : roaring_bitmap_get_cardinality all_values_flat = 2^32). { rewrite roaring_bitmap_get_cardinality_spec by exact (den_bok _ _ all_values_flat_denotes). apply (cnt_full (mem all_values_flat) 0 (2^32)); [lia|]. intros x X. apply (den_mem _ _ x all_values_flat_denotes X). }
    rewrite C. replace (2^32 - 1 <? 2^32) with true by lia. replace ((2^32 - 1) mod 2^32) with (2^32 - 1) by reflexivity. rewrite (proj2 (proj2 select_all_values_fails)). reflexivity.
Qed.
Lemma half_index m P : mden m P -> (forall v, 0 <= v <= 2^63 -> P v = true) -> map_getIndex m (2^63) = Some (- 2^63).
Proof.
  intros H F. pose proof (mokm_of m P H) as O. assert (V : val64 (2^63)) by (unfold val64; lia). destruct (split_high (2^63) V) as (K & L & _).
  assert (HB : highBytes (2^63) = 2^31) by (vm_compute; reflexivity). assert (LB : lowBytes (2^63) = 0) by (vm_compute; reflexivity). unfold map_getIndex. rewrite HB, LB in *.
  destruct (mfind m (2^31)) as [b|] eqn:E.
  2:{ pose proof (mden_absent m P _ 0 H K E L) as X. unfold half in X. rewrite F in X by lia. discriminate. }
  destruct (mden_found m P _ b H E) as (_ & D). pose proof (q_get_index b _ 0 D L) as Q. unfold half at 1 in Q. rewrite F in Q by lia. apply has_card_iff in Q. rewrite <- Obs.cnt_window in Q by lia. rewrite cnt_nil in Q by lia. rewrite Q.
  assert (S : sum_before m (Some (2^31)) 0 = 2^63). { rewrite <- (mlower_self m (2^31)) by (try apply (mden_sorted m P H); unfold mhas; now rewrite E). rewrite sum_before_spec by (auto; lia). rewrite <- (mden_below m P) by (auto; lia). rewrite cnt_full by (try lia; intros x X; apply F; lia). reflexivity. }
  rewrite S. reflexivity.
Qed.
Lemma n_index_refuted : exists m P n i, denotesN m P /\ P (2^63) = true /\ has_card64 (zinter P (zival 0 (2^63))) n /\ map_getIndex m (2^63) = Some i /\ n <> i /\ i < 0.
Proof.
  destruct (mden_addRange [] zempty 0 (2^63) mden_nil) as (m & E & D); [unfold val64; lia|unfold val64; lia|]. apply (mden_add m _ (2^63)) in D; [|unfold val64; lia]. set (P := zadd _ _) in D. exists (map_add m (2^63)), P, (2^63), (- 2^63).
  assert (F : forall v, 0 <= v <= 2^63 -> P v = true) by (intros v V; unfold P, zadd, zunion, zival, zempty; lia).
  split; [now apply denotesN_iff|]. split; [apply F; lia|]. split; [|split; [now apply (half_index _ P)|lia]].
  apply Hist64.has_card64_cnt. rewrite Hist64.cnt_window by lia. symmetry. rewrite cnt_full; [lia|lia|]. intros x X. apply F. lia.
Qed.
(** ** Between the C and the C++ interfaces *)
Lemma n_from_c r P buf out n : Hist64.denotes64 r P -> R64S.roaring64_bitmap_portable_serialize r buf = Some (out, n) -> n <= len buf -> n < 2^32 -> R64S.roaring64_bitmap_portable_size_in_bytes r = Some n ->
  len out = len buf /\ exists m, map_readSafe out n = Ok m /\ denotesN m P.
Proof.
  intros D E LB LN SZ. pose proof (Derived64S.h_format r P buf out n D E LB LN SZ) as F.
  destruct (Derived64S.den_group r P D) as (xs & H & C & _). destruct (R64S.serialize64_bytes r xs buf H C) as (E1 & E2). cbv zeta in E1, E2. set (w := R64S.out64 _) in *. rewrite E1 in SZ. assert (n = zlen w) as -> by congruence. rewrite E2 in E by exact LB. assert (X : forall (a b : list Z) (c d : Z), Some (a, c) = Some (b, d) -> b = a) by congruence. apply X in E. subst out. clear X.
  rewrite (firstn_app_l (Z.to_nat (zlen w))) in F by (unfold zlen; lia). unfold zlen in LB, LN |- *. split; [rewrite app_length, skipn_length; lia|]. assert (PF : portable_format64 P w) by (destruct F as (bs & A & B & _); exists bs; exact (conj A B)).
  destruct (format_map P w PF) as (m & Dm & W & S); [exact LN|]. exists m. split; [|now apply denotesN_iff]. set (t := skipn _ buf). change (Z.of_nat (length w)) with (zlen w) in *. rewrite <- S in *. clearbody t. clear -W Dm LN. rewrite W. pose proof (zlen_nonneg (gbytes m)). rewrite readSafe_back; [|exact (mokm_of _ _ Dm)|]; [now rewrite Z.ltb_irrefl|]. rewrite size_bytes by exact (mokm_of _ _ Dm). rewrite size_bytes in LN by exact (mokm_of _ _ Dm). rewrite ebytes_portable in *. lia.
Qed.
Lemma n_to_c m P buf out n : denotesN m P -> map_write true m buf = Some (out, n) -> n = len buf -> n < 2^32 -> map_getSizeInBytes true m = n ->
  len out = n /\ roaring64_bitmap_portable_deserialize_size out n = Some n /\ exists r, roaring64_bitmap_portable_deserialize_safe out n = Ok r /\ Hist64.denotes64 r P.
Proof.
  intros D E LB LN SZ. pose proof (n_format m P buf out n D E ltac:(lia) LN SZ) as F. apply denotesN_iff in D. pose proof (mokm_of _ _ D) as O. rewrite write_bytes in E by (auto; unfold zlen; lia). set (w := le 8 (zlen m) ++ ebytes true m) in *.
  assert (n = zlen w) as N by (rewrite <- SZ; unfold w; rewrite size_bytes by auto; now rewrite zlen_app, le_zlen). rewrite skipn_all2 in E by (unfold zlen in N; lia). rewrite app_nil_r in E. assert (out = w) as -> by (clear -E; congruence).
  assert (firstn (Z.to_nat n) w = w) as FW by (apply firstn_all2; unfold zlen in N; lia). rewrite FW in F. unfold zlen in N. destruct (Derived64S.h_foreign P w [] n F) as (A & B); [lia|constructor|lia|]. rewrite app_nil_r in A, B. rewrite <- N in A. auto.
Qed.
Lemma n_histories tr : legalN (map fst tr) (fun _ => zempty) -> exists st outs, execN tr empty_heapN = Some (st, outs) /\
  (forall i, denotesN (st i) (spec_runN (map fst tr) (fun _ => zempty) i)) /\ agreesN (map fst tr) (fun _ => zempty) outs.
Proof. intros L. apply n_history; auto. exact n_new. Qed.
Lemma n_select_index m P : denotesN m P ->
  (forall k, 0 <= k < 2^64 -> (forall h, 0 <= h < 2^32 -> exists v, 0 <= v < 2^32 /\ P (h * 2^32 + v) = false) ->
     match map_select m k with
     | Ok (Some v) => val64 v /\ P v = true /\ has_card64 (zinter P (zival 0 v)) k
     | Ok None => forall n, has_card64 P n -> n <= k
     | _ => False
     end) /\
  forall v, val64 v -> (forall n, has_card64 (zinter P (zival 0 v)) n -> n < 2^63) -> exists i, map_getIndex m v = Some i /\ if P v then has_card64 (zinter P (zival 0 v)) i else i = -1.
Proof.
  intros D. apply denotesN_iff in D. split.
  - intros k K H. apply (mden_select m P k); auto.
  - intros v V B. apply (getIndex_spec m P v); auto. apply B. apply Hist64.has_card64_cnt. unfold val64 in V. now rewrite Hist64.cnt_window by lia.
Qed.
Lemma sparse_card P a b : 0 <= a <= b -> b <= 2^64 -> a + (2^64 - b) < 2^63 -> (forall x, a <= x < b -> P x = false) -> forall n, has_card64 P n -> n < 2^63.
Proof.
  intros A B S E n H. apply Hist64.has_card64_cnt in H. subst n. rewrite (cnt_app P 0 a), (cnt_app P a b), (cnt_none P a b) by (auto; lia). pose proof (cnt_bound P 0 a ltac:(lia)). pose proof (cnt_bound P b (2^64) ltac:(lia)). lia.
Qed.
Lemma no_cookie_check l : forallb (fun b => negb (b =? 59)) l = true -> forall i, ~ (nth i l 0 = 59 /\ nth (S i) l 0 = 48).
Proof.
  intros X i (A & _). rewrite forallb_forall in X. destruct (nth_in_or_default i l 0) as [I|E]; [apply X in I; rewrite A in I; discriminate|rewrite E in A; discriminate].
Qed.
