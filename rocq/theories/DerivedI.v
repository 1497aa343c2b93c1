(** DerivedI: the iterator properties in the vocabulary of Spec and SpecI. *)
From Coq Require Import ZArith List Bool Lia Sorting.Sorted.
From Verif Require Import Base ArrayUtil BitUtil BitsetC ArrayC RunC RunD Convert Containers RArray RBinary RPoint RRange RQuery RStat RShift Bytes Iter IterP
  Spec SpecI Obs.
Import ListNotations.
Local Open Scope Z_scope.
Local Opaque zr.

(** one call on an iterator over [r], and a sequence of calls *)
Definition iter_step (r : bitmap) (it : iter) (c : icmd) : option (iter * list Z) :=
  let quiet := fun o => match o with Some it => Some (it, []) | None => None end in
  match c with
  | IAdvance => quiet (roaring_uint32_iterator_advance r it)
  | IPrevious => quiet (roaring_uint32_iterator_previous r it)
  | ISeek x => quiet (roaring_uint32_iterator_move_equalorlarger r it x)
  | IRead n => roaring_uint32_iterator_read r it n
  end.
Fixpoint iter_run (r : bitmap) (it : iter) (cs : list icmd) : option (list (bool * Z * list Z)) :=
  match cs with
  | [] => Some []
  | c :: cs =>
    match iter_step r it c with
    | None => None
    | Some (it', out) => match iter_run r it' cs with Some t => Some ((it_has it', it_cur it', out) :: t) | None => None end
    end
  end.
Lemma lists_elems r P l : denotes r P -> lists P l -> l = elems r.
Proof.
  intros D [S L]. pose proof (elems_lists r P D) as [S' L']. apply incr_ext; [now apply incr_SS|now apply incr_SS|]. intros x. now rewrite L, L'.
Qed.
Lemma seen_obs r it p : bok r -> ipos r it p -> (it_has it, it_cur it) = seen (elems r) p.
Proof.
  intros B H. destruct (ipos_obs _ _ _ B H) as (_&HH&HC). unfold seen, on_member, len_of. fold (zlen (elems r)). rewrite HC. rewrite <- HH. destruct (it_has it); reflexivity.
Qed.
Lemma iter_step_spec r it p c : bok r -> ipos r it p -> icmd_ok c -> exists it' out, iter_step r it c = Some (it', out) /\ ipos r it' (fst (cursor_step (elems r) p c)) /\ out = snd (cursor_step (elems r) p c).
Proof.
  intros B H C. destruct c as [| |x|n]; cbn [iter_step cursor_step icmd_ok] in *.
  - destruct (advance_pos r it p B H) as (it'&->&H'). exists it', []. auto.
  - destruct (previous_pos r it p B H) as (it'&->&H'). exists it', []. auto.
  - destruct (seek_pos r it p x B H C) as (it'&->&H'). exists it', []. auto.
  - destruct (ipos_obs _ _ _ B H) as (PB&HH&_). unfold on_member, len_of. fold (zlen (elems r)). unfold roaring_uint32_iterator_read.
    destruct (it_has it) eqn:E.
    + rewrite <- HH. symmetry in HH. apply andb_true_iff in HH as [H1 H2]. apply Z.leb_le in H1. apply Z.ltb_lt in H2.
      destruct (read_pos (S (length r)) r it p n B H H1 (proj1 C)) as (it'&out&E'&H'&S&L&T).
      { destruct H as [(->&_)|[(->&_)|(r1&k&c&r2&v&->&A&_)]]; try lia. rewrite A. rewrite zlen_app, zlen_cons, app_length. cbn [length]. unfold zlen. lia. }
      exists it', out. split; auto. cbn [fst snd]. pose proof (zlen_nonneg out). pose proof (ipos_obs _ _ _ B H') as (PB'&_).
      split; [replace (Z.min _ _) with (p + zlen out) by lia; exact H'|]. unfold zdrop in S. rewrite S. rewrite firstn_app. destruct T as [T|T].
      * rewrite firstn_all2 by (unfold zlen in T; lia). replace (Z.to_nat n - length out)%nat with 0%nat by (unfold zlen in T; lia). now rewrite firstn_O, app_nil_r.
      * rewrite firstn_all2 by (unfold zlen in L; lia). rewrite skipn_all2 by (unfold zlen in *; lia). now rewrite firstn_nil, app_nil_r.
    + rewrite <- HH. cbn [iterator_read]. rewrite E. cbn [andb]. exists it, []. auto.
Qed.
Lemma iter_run_spec r : bok r -> forall cs it p, ipos r it p -> Forall icmd_ok cs -> iter_run r it cs = Some (cursor_run (elems r) p cs).
Proof.
  intros B. induction cs as [|c cs IH]; intros it p H F; [reflexivity|]. inversion_clear F as [|? ? F1 F2]. cbn [iter_run cursor_run].
  destruct (iter_step_spec r it p c B H F1) as (it'&out&->&H'&->). destruct (cursor_step (elems r) p c) as [p' o]. cbn [fst snd] in *. rewrite (IH it' p' H' F2). now rewrite <- (seen_obs r it' p' B H').
Qed.
Lemma i_first r P l cs : denotes r P -> lists P l -> Forall icmd_ok cs ->
  exists it, roaring_iterator_init r = Some it /\ (it_has it, it_cur it) = seen l 0 /\ iter_run r it cs = Some (cursor_run l 0 cs).
Proof.
  intros D L F. rewrite (lists_elems _ _ _ D L). pose proof (den_bok _ _ D) as B. destruct (init_pos r B) as (it&E&H). exists it. split; auto. split; [now apply seen_obs|now apply iter_run_spec].
Qed.
Lemma i_last r P l cs : denotes r P -> lists P l -> Forall icmd_ok cs ->
  exists it, roaring_iterator_init_last r = Some it /\ (it_has it, it_cur it) = seen l (len_of l - 1) /\ iter_run r it cs = Some (cursor_run l (len_of l - 1) cs).
Proof.
  intros D L F. rewrite (lists_elems _ _ _ D L). pose proof (den_bok _ _ D) as B. destruct (init_last_pos r B) as (it&E&H). exists it. split; auto. split; [now apply seen_obs|now apply iter_run_spec].
Qed.
Lemma i_range r P x y : denotes r P -> val32 x -> exists b, roaring_bitmap_intersect_with_range r x y = Some b /\ (b = true <-> exists v, val32 v /\ x <= v < y /\ P v = true).
Proof.
  intros D X. pose proof (den_bok _ _ D) as B. unfold roaring_bitmap_intersect_with_range. destruct (Z.leb_spec y x) as [L|L].
  { exists false. split; auto. split; [discriminate|]. intros (v&_&V&_). lia. }
  destruct (init_pos r B) as (it&->&H). red in X. rewrite u32_small by lia. destruct (seek_pos r it 0 x B H X) as (it'&->&H'). eexists. split; [reflexivity|].
  destruct (ipos_obs _ _ _ B H') as (PB&HH&HC). pose proof (elems_lists r P D) as [SS LL]. apply incr_SS in SS. pose proof (lb_bound (elems r) x) as LB.
  rewrite andb_true_iff, negb_true_iff, Z.leb_gt. split.
  - intros [E1 E2]. rewrite E1 in HC, HH. symmetry in HH. apply andb_true_iff in HH as [_ HH]. apply Z.ltb_lt in HH. pose proof (znth_In (elems r) (lb (elems r) x) ltac:(lia)) as IN.
    rewrite <- HC in IN. apply LL in IN as [IN1 IN2]. exists (it_cur it'). split; auto. split; auto. split; auto. rewrite HC. apply lb_ge; auto. lia.
  - intros (v&V&XV&PV). assert (IN : In v (elems r)) by (apply LL; auto). apply In_znth in IN as (j&J&<-).
    assert (lb (elems r) x <= j). { destruct (Z_lt_le_dec j (lb (elems r) x)) as [Q|Q]; auto. pose proof (lb_lt (elems r) x j SS ltac:(lia)). lia. }
    assert (E : it_has it' = true). { rewrite HH. apply andb_true_iff. split; [apply Z.leb_le|apply Z.ltb_lt]; lia. }
    split; auto. rewrite HC, E. pose proof (incr_znth_le (elems r) (lb (elems r) x) j SS ltac:(lia) H0 ltac:(lia)). lia.
Qed.
Lemma i_range_refuted : exists r P x y, denotes r P /\ 2 ^ 32 <= x /\ roaring_bitmap_intersect_with_range r x y = Some true /\ ~ exists v, val32 v /\ x <= v < y /\ P v = true.
Proof.
  exists (roaring_bitmap_of_ptr [5]), (zlist [5]), (2 ^ 32), (2 ^ 32 + 10). split; [apply den_of_ptr; intros v [<-|[]]; red; lia|]. split; [lia|]. split; [vm_compute; reflexivity|].
  intros (v&V&H&_). red in V. lia.
Qed.
