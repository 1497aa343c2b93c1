(** RCppP: programs over C++ objects keep every container owned by exactly one object
    and hold the sets they should; the iterators stand where they should. *)
From Coq Require Import ZArith List Bool Lia.
From Verif Require Import Base ArrayUtil BitUtil BitsetC ArrayC RunC RunD Convert Containers RArray RBinary RPoint RRange RQuery RStat RShift Spec SpecI SpecCpp Obs DerivedS Hist RCpp.
From Verif Require Iter IterP DerivedI.
Import ListNotations.
Local Open Scope Z_scope.
Local Opaque zr.

(** ** Memory *)
Definition ptrs (o : obj) : list nat := map snd o.
Lemma rd_upd m p c q : rd m p <> None -> rd (upd p c m) q = if Nat.eqb q p then c else rd m q.
Proof.
  unfold rd. intros H. apply upd_nth. destruct (Nat.lt_ge_cases p (length m)) as [|G]; auto. now rewrite nth_overflow in H by lia.
Qed.
Lemma rd_snoc m c q : rd (m ++ [c]) q = if Nat.eqb q (length m) then c else rd m q.
Proof.
  unfold rd. destruct (Nat.eqb_spec q (length m)) as [->|N].
  - rewrite app_nth2 by lia. now rewrite Nat.sub_diag.
  - destruct (Nat.lt_ge_cases q (length m)) as [L|G]; [now rewrite app_nth1|]. rewrite !nth_overflow; auto. rewrite app_length. cbn. lia.
Qed.
Lemma rd_fresh m q : (length m <= q)%nat -> rd m q = None. Proof. intros H. unfold rd. now apply nth_overflow. Qed.
Lemma load_frame m m' o : (forall p, In p (ptrs o) -> rd m' p = rd m p) -> load m' o = load m o.
Proof.
  induction o as [|[k p] t IH]; intros H; cbn [load]; auto. rewrite (H p) by (now left). rewrite IH; auto. intros q I. apply H. now right.
Qed.
Lemma load_ptr m o r p : load m o = Some r -> In p (ptrs o) -> rd m p <> None.
Proof.
  revert r. induction o as [|[k q] t IH]; intros r E I; [contradiction I|]. cbn [load] in E. destruct (rd m q) eqn:R; [|discriminate E]. destruct (load m t) eqn:L; [|discriminate E].
  destruct I as [<-|I]; [cbn; now rewrite R|]. now apply (IH _ eq_refl).
Qed.
Lemma clear_ok o : forall m, NoDup (ptrs o) -> (forall p, In p (ptrs o) -> rd m p <> None) ->
  exists m', ra_clear_containers m o = Some m' /\ length m' = length m /\ forall q, rd m' q = if existsb (Nat.eqb q) (ptrs o) then None else rd m q.
Proof.
  induction o as [|[k p] t IH]; intros m N A; cbn [ra_clear_containers ptrs map snd existsb]. { exists m. auto. }
  cbn [ptrs map snd] in N, A. inversion_clear N as [|? ? N1 N2]. unfold container_free. pose proof (A p (or_introl eq_refl)) as AP. destruct (rd m p) eqn:R; [clear AP|contradiction AP; reflexivity].
  assert (AP : rd m p <> None) by congruence.
  destruct (IH (upd p None m) N2) as (m'&E&L&F).
  { intros q I. rewrite rd_upd by auto. destruct (Nat.eqb_spec q p) as [->|]; [contradiction N1|]. apply A. now right. }
  exists m'. split; auto. split; [now rewrite L, upd_length|]. intros q. rewrite F, rd_upd by auto. unfold ptrs. destruct (Nat.eqb q p); cbn [orb]; auto. now destruct (existsb _ _).
Qed.
Lemma mem_existsb q l : existsb (Nat.eqb q) l = true <-> In q l.
Proof. rewrite existsb_exists. split; [intros (x&I&E)|intros I; exists q]. - apply Nat.eqb_eq in E. now subst. - split; auto. apply Nat.eqb_refl. Qed.
Lemma mem_existsb_f q l : existsb (Nat.eqb q) l = false <-> ~ In q l.
Proof. rewrite <- mem_existsb. destruct (existsb _ _); intuition congruence. Qed.
Lemma alloc_ok r : forall m, exists m' o, alloc m r = (m', o) /\ (length m <= length m')%nat /\ NoDup (ptrs o) /\ load m' o = Some r /\
  (forall p, In p (ptrs o) -> (length m <= p)%nat) /\ (forall q, ~ In q (ptrs o) -> rd m' q = rd m q).
Proof.
  induction r as [|[k c] t IH]; intros m; cbn [alloc]. { exists m, []. cbn. split; auto. split; auto. split; [constructor|]. split; auto. split; [contradiction|auto]. }
  destruct (IH (m ++ [Some c])) as (m'&o&->&L&N&LD&G&F). exists m', ((k, length m) :: o). split; auto. rewrite app_length in *. cbn [length] in *. cbn [ptrs map snd] in *.
  assert (NI : ~ In (length m) (map snd o)) by (intros I; apply G in I; lia).
  split; [lia|]. split; [now constructor|]. split.
  - cbn [load]. rewrite F by auto. rewrite rd_snoc, Nat.eqb_refl. now rewrite LD.
  - split. { intros p [<-|I]; [lia|]. apply G in I. lia. } intros q I. rewrite F by (intros J; apply I; now right). rewrite rd_snoc.
    destruct (Nat.eqb_spec q (length m)) as [->|]; auto. exfalso. apply I. now left.
Qed.
Lemma clone_alloc o : forall m r, load m o = Some r -> clone_all m o = Some (alloc m r).
Proof.
  induction o as [|[k p] t IH]; intros m r E; cbn [load clone_all] in *. { injection E as <-. reflexivity. }
  destruct (rd m p) as [c|] eqn:R; [|discriminate E]. destruct (load m t) as [r'|] eqn:L; [|discriminate E]. injection E as <-. cbn [alloc].
  rewrite (IH (m ++ [Some c]) r').
  - destruct (alloc (m ++ [Some c]) r'). reflexivity.
  - rewrite <- L. apply load_frame. intros q I. rewrite rd_snoc. destruct (Nat.eqb_spec q (length m)) as [->|]; auto.
    pose proof (load_ptr _ _ _ _ L I) as X. now rewrite rd_fresh in X by lia.
Qed.
Lemma clone_dangling o m : (exists p, In p (ptrs o) /\ rd m p = None /\ (p < length m)%nat) -> clone_all m o = None.
Proof.
  revert m. induction o as [|[k p] t IH]; intros m (q&I&R&L); [contradiction I|]. cbn [clone_all]. destruct I as [<-|I]; [cbn in R; now rewrite R|].
  destruct (rd m p); auto. rewrite IH; auto. exists q. split; auto. rewrite rd_snoc, app_length. cbn [length]. destruct (Nat.eqb_spec q (length m)); [lia|]. split; [auto|lia].
Qed.

(** ** The invariant *)
(** every container has one owner, and every block has an owner *)
Record owned (m : blocks) (f : nat -> option obj) : Prop := {
  w_nd : forall i o, f i = Some o -> NoDup (ptrs o);
  w_dj : forall i j o o' p, f i = Some o -> f j = Some o' -> In p (ptrs o) -> In p (ptrs o') -> i = j;
  w_own : forall p, rd m p <> None <-> exists i o, f i = Some o /\ In p (ptrs o) }.
Definition values_of (m : blocks) (f : nat -> option obj) (S : osets) : Prop :=
  forall i, match f i, S i with Some o, Some P => exists r, load m o = Some r /\ denotes r P | None, None => True | _, _ => False end.
Definition inv (st : mach) (S : osets) : Prop := owned (mm st) (mo st) /\ values_of (mm st) (mo st) S.
Lemma inv_ext m f g S T : (forall i, f i = g i) -> (forall i, S i = T i) -> inv (Mach m f) S -> inv (Mach m g) T.
Proof.
  intros E1 E2 [[A B C] V]. cbn [mm mo] in *. split; [constructor|]; cbn [mm mo].
  - intros i o. rewrite <- E1. apply A.
  - intros i j o o' p. rewrite <- !E1. apply B.
  - intros p. rewrite C. split; intros (i&o&H); exists i, o; [now rewrite <- E1|now rewrite E1].
  - intros i. rewrite <- E1, <- E2. apply V.
Qed.
Lemma inv_start : inv obj_start no_objects.
Proof.
  split; [constructor|]; cbn.
  - discriminate.
  - discriminate.
  - intros p. split; [intros H; exfalso; apply H; unfold rd; now destruct p|intros (i&o&H&_); discriminate H].
  - intros i. exact I.
Qed.
Lemma put_at {A} (S : nat -> A) d x : put S d x d = x. Proof. unfold put. now rewrite Nat.eqb_refl. Qed.
Lemma put_ne {A} (S : nat -> A) d x i : i <> d -> put S d x i = S i. Proof. intros H. unfold put. destruct (Nat.eqb_spec i d); [contradiction|auto]. Qed.
Ltac pc i d := destruct (Nat.eq_dec i d) as [->|]; [rewrite ?put_at in *|rewrite ?(put_ne _ d) in * by assumption].
Lemma inv_mo st S d : inv st S -> alive S d -> exists o r, mo st d = Some o /\ load (mm st) o = Some r /\ denotes r (sets S d) /\ own st d = o.
Proof.
  intros [_ V] A. specialize (V d). unfold own, sets. unfold alive in A. destruct (mo st d) as [o|], (S d) as [P|]; try contradiction; try congruence.
  destruct V as (r&L&D). exists o, r. auto.
Qed.
Lemma inv_dead st S d : inv st S -> S d = None -> mo st d = None.
Proof. intros [_ V] A. specialize (V d). rewrite A in V. destruct (mo st d); [contradiction V|auto]. Qed.
Lemma inv_own_ptr st S d p : inv st S -> In p (ptrs (own st d)) -> mo st d = Some (own st d) /\ rd (mm st) p <> None.
Proof.
  intros [O V] I. unfold own in *. destruct (mo st d) as [o|] eqn:E; [|contradiction I]. split; auto. apply (w_own _ _ O). exists d, o. auto.
Qed.
(** releasing the containers of d; x: None or Some [] afterwards *)
Lemma inv_release st S d x P : inv st S -> (x = None /\ P = None \/ x = Some [] /\ P = Some zempty) ->
  exists m, ra_clear_containers (mm st) (own st d) = Some m /\ inv (Mach m (put (mo st) d x)) (put S d P) /\ length m = length (mm st) /\
    (forall q, rd m q = if existsb (Nat.eqb q) (ptrs (own st d)) then None else rd (mm st) q).
Proof.
  intros I X. destruct (clear_ok (own st d) (mm st)) as (m&E&L&F).
  { unfold own. destruct (mo st d) as [o|] eqn:E; [|constructor]. destruct I as [O _]. exact (w_nd _ _ O _ _ E). }
  { intros p J. exact (proj2 (inv_own_ptr _ _ _ _ I J)). }
  exists m. split; auto. split; auto. destruct I as [O V].
  assert (XE : forall o, x = Some o -> o = []) by (destruct X as [[-> _]|[-> _]]; congruence).
  split; [constructor|]; cbn [mm mo].
  - intros i o H. pc i d. { rewrite (XE _ H). constructor. } exact (w_nd _ _ O _ _ H).
  - intros i j o o' p H1 H2 J1 J2. pc i d; [rewrite (XE _ H1) in J1; contradiction J1|]. pc j d; [rewrite (XE _ H2) in J2; contradiction J2|]. exact (w_dj _ _ O _ _ _ _ _ H1 H2 J1 J2).
  - intros p. rewrite F. destruct (existsb (Nat.eqb p) (ptrs (own st d))) eqn:EX.
    + apply mem_existsb in EX. split; [congruence|]. intros (i&o&H&J). pc i d; [rewrite (XE _ H) in J; contradiction J|]. exfalso.
      unfold own in EX. destruct (mo st d) as [od|] eqn:E1; [|contradiction EX]. apply n. exact (w_dj _ _ O _ _ _ _ _ H E1 J EX).
    + apply mem_existsb_f in EX. rewrite (w_own _ _ O). split; intros (i&o&H&J); exists i, o.
      * pc i d; auto. unfold own in EX. rewrite H in EX. contradiction (EX J).
      * pc i d; [rewrite (XE _ H) in J; contradiction J|auto].
  - intros i. pc i d.
    + destruct X as [[-> ->]|[-> ->]]; [exact I|]. exists []. split; auto. apply den_new.
    + specialize (V i). destruct (mo st i) as [o|] eqn:E1, (S i) as [Q|]; auto. destruct V as (r&LD&D). exists r. split; auto. rewrite <- LD. apply load_frame.
      intros p J. rewrite F. replace (existsb (Nat.eqb p) (ptrs (own st d))) with false; auto. symmetry. apply mem_existsb_f. intros J2. apply n.
      unfold own in J2. destruct (mo st d) as [od|] eqn:E2; [|contradiction J2]. exact (w_dj _ _ O _ _ _ _ _ E1 E2 J J2).
Qed.
Lemma inv_clear st S d : inv st S -> exists st', clear d st = Some st' /\ inv st' (put S d (Some zempty)) /\ (forall i, i <> d -> mo st' i = mo st i) /\ own st' d = [].
Proof.
  intros I. destruct (inv_release st S d (Some []) (Some zempty) I (or_intror (conj eq_refl eq_refl))) as (m&E&I'&_). unfold clear. rewrite E. eexists. split; [reflexivity|]. split; auto.
  split; [intros i N; cbn; now rewrite put_ne|]. unfold own. cbn. now rewrite put_at.
Qed.
(** new containers for an object that has none *)
Lemma inv_take st S d r P : inv st S -> own st d = [] -> denotes r P -> inv (take d r st) (put S d (Some P)).
Proof.
  intros I OD D. unfold take. destruct (alloc_ok r (mm st)) as (m&o&->&L&N&LD&G&F). destruct I as [O V].
  assert (FR : forall p, In p (ptrs o) -> rd (mm st) p = None) by (intros p J; now apply rd_fresh, G).
  assert (NO : forall i o' p, mo st i = Some o' -> In p (ptrs o') -> ~ In p (ptrs o)).
  { intros i o' p H J J2. assert (X : rd (mm st) p <> None) by (apply (w_own _ _ O); eauto). now rewrite FR in X. }
  split; [constructor|]; cbn [mm mo].
  - intros i o' H. pc i d; [now injection H as <-|exact (w_nd _ _ O _ _ H)].
  - intros i j o1 o2 p H1 H2 J1 J2. pc i d; pc j d; auto.
    + injection H1 as <-. contradiction (NO _ _ _ H2 J2 J1).
    + injection H2 as <-. contradiction (NO _ _ _ H1 J1 J2).
    + exact (w_dj _ _ O _ _ _ _ _ H1 H2 J1 J2).
  - intros p. destruct (in_dec Nat.eq_dec p (ptrs o)) as [J|J].
    + split; [intros _; exists d, o; now rewrite put_at|]. intros _. exact (load_ptr _ _ _ _ LD J).
    + rewrite F by auto. rewrite (w_own _ _ O). split; intros (i&o'&H&J'); exists i, o'.
      * pc i d; auto. unfold own in OD. rewrite H in OD. subst o'. contradiction J'.
      * pc i d; [injection H as <-; contradiction|auto].
  - intros i. pc i d; [exists r; auto|]. specialize (V i). destruct (mo st i) as [o'|] eqn:E, (S i) as [Q|]; auto. destruct V as (r'&L'&D'). exists r'. split; auto. rewrite <- L'. apply load_frame.
    intros p J. apply F. exact (NO _ _ _ E J).
Qed.
Lemma put_twice {A} (S : nat -> A) d x y i : put (put S d x) d y i = put S d y i.
Proof. unfold put. destruct (Nat.eqb i d); auto. Qed.
Lemma inv_eta st S : inv st S -> inv (Mach (mm st) (mo st)) S. Proof. destruct st. auto. Qed.
Lemma inv_sets st S T : (forall i, S i = T i) -> inv st S -> inv st T.
Proof. intros E I. destruct st as [m f]. now apply (inv_ext m f f S T). Qed.
Lemma inv_replace st S d r P : inv st S -> denotes r P -> exists st', clear d st = Some st' /\ inv (take d r st') (put S d (Some P)).
Proof.
  intros I D. destruct (inv_clear st S d I) as (st'&E&I'&_&OD). exists st'. split; auto. eapply inv_sets; [|exact (inv_take _ _ d r P I' OD D)]. apply put_twice.
Qed.
(** exchanging ownership: the objects d and s get each other's, or one of them nothing *)
Lemma inv_swap st S d s : inv st S -> inv (Mach (mm st) (put (put (mo st) d (mo st s)) s (mo st d))) (put (put S d (S s)) s (S d)).
Proof.
  intros [O V]. set (g := fun i => if Nat.eqb i s then d else if Nat.eqb i d then s else i).
  assert (GE : forall i, put (put (mo st) d (mo st s)) s (mo st d) i = mo st (g i)).
  { intros i. unfold g, put. destruct (Nat.eqb i s), (Nat.eqb i d); auto. }
  assert (SE : forall i, put (put S d (S s)) s (S d) i = S (g i)).
  { intros i. unfold g, put. destruct (Nat.eqb i s), (Nat.eqb i d); auto. }
  assert (GG : forall i, g (g i) = i).
  { intros i. unfold g. destruct (Nat.eqb_spec i s) as [->|]. - destruct (Nat.eqb_spec d s); auto. now rewrite Nat.eqb_refl. - destruct (Nat.eqb_spec i d) as [->|]; [now rewrite Nat.eqb_refl|].
    destruct (Nat.eqb_spec i s); [contradiction|]. destruct (Nat.eqb_spec i d); [contradiction|auto]. }
  split; [constructor|]; cbn [mm mo].
  - intros i o. rewrite GE. apply (w_nd _ _ O).
  - intros i j o o' p. rewrite !GE. intros H1 H2 J1 J2. pose proof (w_dj _ _ O _ _ _ _ _ H1 H2 J1 J2) as X. now rewrite <- (GG i), X, GG.
  - intros p. rewrite (w_own _ _ O). split; intros (i&o&H&J); exists (g i), o; [now rewrite GE, GG|now rewrite <- GE].
  - intros i. rewrite GE, SE. apply V.
Qed.
(** s owns nothing *)
Lemma inv_move st S d s : inv st S -> own st d = [] -> alive S s -> d <> s ->
  inv (Mach (mm st) (put (put (mo st) d (mo st s)) s (Some []))) (put (put S d (S s)) s (Some zempty)).
Proof.
  intros I OD A N.
  (* the same as giving d an empty object first, then swapping *)
  assert (I0 : inv (Mach (mm st) (put (mo st) d (Some []))) (put S d (Some zempty))).
  { destruct (inv_release st S d (Some []) (Some zempty) I (or_intror (conj eq_refl eq_refl))) as (m&E&I'&_). rewrite OD in E. cbn in E. injection E as <-. exact I'. }
  eapply inv_ext; [| |exact (inv_swap _ _ d s I0)]; cbn [mm mo]; intros i; unfold put; destruct (Nat.eqb_spec i s), (Nat.eqb_spec i d), (Nat.eqb_spec s d), (Nat.eqb_spec d d); congruence.
Qed.

(** ** Methods *)
Lemma step_local c ora h h' : (forall i, In i (mentions c) -> h i = h' i) ->
  snd (step c ora h) = snd (step c ora h') /\ forall d, writes c = Some d -> fst (step c ora h) d = fst (step c ora h') d.
Proof.
  intros H. destruct c; cbn [mentions writes] in *; cbn [Hist.step];
    repeat match goal with
    | H : forall i, In i (?a :: ?l) -> h i = h' i |- _ =>
        let E := fresh "E" in pose proof (H a (or_introl eq_refl)) as E; assert (forall i, In i l -> h i = h' i) by (intros; apply H; now right); clear H; rewrite ?E
    end;
    try (split; [reflexivity|]; intros x X; first [discriminate X | injection X as <-]; cbn [fst snd]; rewrite ?put_at; reflexivity).
  - split; [reflexivity|]. intros x X. injection X as <-. cbn [fst]. destruct (roaring_bitmap_from_range range_fuel lo hi step) as [[r|]|]; rewrite ?put_at; auto.
  - destruct (roaring_bitmap_add_checked (h' d) v). split; [reflexivity|]. intros x X. injection X as <-. cbn [fst]. now rewrite !put_at.
  - destruct (roaring_bitmap_remove_checked (h' d) v). split; [reflexivity|]. intros x X. injection X as <-. cbn [fst]. now rewrite !put_at.
  - destruct (roaring_bitmap_run_optimize (h' d)). split; [reflexivity|]. intros x X. injection X as <-. cbn [fst]. now rewrite !put_at.
  - destruct (roaring_bitmap_remove_run_compression (h' d)). split; [reflexivity|]. intros x X. injection X as <-. cbn [fst]. now rewrite !put_at.
  - split; [reflexivity|]. intros x X. injection X as <-. cbn [fst]. rewrite !put_at. f_equal. now apply map_ext_in.
  - split; [reflexivity|]. intros x X. injection X as <-. cbn [fst]. rewrite !put_at. f_equal. now apply map_ext_in.
  - split; [reflexivity|]. intros x X. injection X as <-. cbn [fst]. rewrite !put_at. f_equal. now apply map_ext_in.
  - split; [reflexivity|]. intros x X. injection X as <-. cbn [fst]. destruct (reload_portable (h' s)); rewrite ?put_at; auto.
  - split; [reflexivity|]. intros x X. injection X as <-. cbn [fst]. destruct (reload_native (h' s)); rewrite ?put_at; auto.
Qed.
Definition value (st : mach) : heap := fun i => match mo st i with Some o => match load (mm st) o with Some r => r | None => [] end | None => [] end.
Lemma value_refines st S : inv st S -> refines (value st) (sets S).
Proof.
  intros [_ V] i. specialize (V i). unfold value, sets. destruct (mo st i) as [o|], (S i) as [P|]; try contradiction V; [|apply den_new].
  destruct V as (r&->&D). exact D.
Qed.
Lemma load_names_ok st S ns : inv st S -> Forall (alive S) ns -> exists h, load_names st ns = Some h /\ forall i, In i ns -> h i = value st i.
Proof.
  intros I F. induction F as [|n ns A F IH]; cbn [load_names]. { eexists. split; [reflexivity|]. intros i J. contradiction J. }
  destruct (inv_mo _ _ _ I A) as (o&r&E&L&D&_). rewrite E, L. destruct IH as (h&->&H). eexists. split; [reflexivity|]. intros i J.
  pc i n. - unfold value. now rewrite E, L. - apply H. destruct J as [<-|J]; [contradiction|auto].
Qed.
Lemma call_ok c ora st S : inv st S -> ook (OCall c) S -> exists st' a, call c ora st = Some (st', a) /\ inv st' (ostep (OCall c) S) /\ spec_out c (sets S) a.
Proof.
  intros I (M&A&K). unfold call. destruct (load_names_ok st S _ I A) as (h&->&H).
  assert (AS : asserts c = true). { destruct c; cbn [asserts cmd_ok] in *; auto; apply negb_true_iff, Nat.eqb_neq; exact K. } rewrite AS.
  destruct (step_local c ora h (value st) H) as [HO HD]. destruct (step_refines c ora (value st) (sets S) (value_refines _ _ I) K) as [R O].
  rewrite <- HO in O. destruct (step c ora h) as [h' a]. cbn [fst snd] in *. cbn [ostep]. destruct (writes c) as [d|].
  - destruct (inv_replace st S d (h' d) (spec_step c (sets S) d) I) as (st'&E&I'). { rewrite (HD d eq_refl). apply R. }
    rewrite E. eexists _, a. auto.
  - exists st, a. auto.
Qed.

(** ** Programs *)
Lemma clear_frame st S d s m o : inv st S -> ra_clear_containers (mm st) (own st d) = Some m -> mo st s = Some o -> d <> s -> load m o = load (mm st) o.
Proof.
  intros I C E N. apply load_frame. intros p J. destruct (inv_release st S d (Some []) (Some zempty) I (or_intror (conj eq_refl eq_refl))) as (m'&C'&_&_&F).
  rewrite C in C'. injection C' as <-. rewrite F. replace (existsb (Nat.eqb p) (ptrs (own st d))) with false; auto. symmetry. apply mem_existsb_f. intros J2.
  destruct (inv_own_ptr _ _ _ _ I J2) as [E3 _]. apply N. destruct I as [O _]. exact (w_dj _ _ O _ _ _ _ _ E3 E J2 J).
Qed.
Lemma overwrite_clone m dest src : roaring_bitmap_overwrite m dest src = match ra_clear_containers m dest with Some m1 => clone_all m1 src | None => None end.
Proof. unfold roaring_bitmap_overwrite. destruct (ra_clear_containers m dest); auto. now destruct src as [|[k p] t]. Qed.
Lemma valid_empty r P : denotes r P -> same_set P zempty -> r = [].
Proof.
  intros D E. apply (q_is_empty r P D) in E. unfold roaring_bitmap_is_empty in E. destruct r as [|p t]; auto. rewrite zlen_cons in E. pose proof (zlen_nonneg t). lia.
Qed.
Lemma empty_obj st S d : inv st S -> alive S d -> same_set (sets S d) zempty -> own st d = [].
Proof.
  intros I A E. destruct (inv_mo _ _ _ I A) as (o&r&EO&L&D&->). 
  rewrite (valid_empty r _ D E) in L.
  destruct o as [|[k p] t]; auto. cbn [load] in L. destruct (rd (mm st) p); [|discriminate L]. destruct (load (mm st) t); discriminate L.
Qed.
Lemma overwrite_ok st S d s : inv st S -> alive S s -> (d <> s \/ same_set (sets S d) zempty) ->
  exists m o, roaring_bitmap_overwrite (mm st) (own st d) (own st s) = Some (m, o) /\ inv (Mach m (put (mo st) d (Some o))) (put S d (S s)).
Proof.
  intros I A NS. rewrite overwrite_clone. destruct (inv_mo _ _ _ I A) as (o&r&E&L&D&EO). unfold sets in D. pose proof A as A0. unfold alive in A0. destruct (S s) as [P|] eqn:SS; [clear A0|contradiction A0; reflexivity].
  destruct (Nat.eq_dec d s) as [->|N].
  - destruct NS as [NS|NS]; [contradiction NS; reflexivity|]. rewrite (empty_obj _ _ _ I A NS). cbn. exists (mm st), []. split; auto. eapply inv_ext; [| |exact (inv_eta _ _ I)].
    + intros i. pc i s; auto. rewrite E. f_equal. rewrite <- EO. exact (empty_obj _ _ _ I A NS).
    + intros i. pc i s; auto.
  - destruct (inv_clear st S d I) as (st'&C&I'&_&OD). unfold clear in C. destruct (ra_clear_containers (mm st) (own st d)) as [m1|] eqn:C1; [|discriminate C]. injection C as <-.
    rewrite EO. rewrite (clone_alloc o m1 r) by (now rewrite (clear_frame st S d s m1 o)). pose proof (inv_take _ _ d r P I' OD D) as T. unfold take in T. cbn [mm mo] in T.
    destruct (alloc m1 r) as [m o1]. exists m, o1. split; auto. eapply inv_ext; [| |exact T]; intros i; apply put_twice.
Qed.
Lemma obj_step_ok c ora st S : inv st S -> ook c S -> no_self c S -> exists st' a, obj_step c ora st = Some (st', a) /\ inv st' (ostep c S) /\ oout c S a.
Proof.
  intros I K NS. destruct c; cbn [ook no_self] in K, NS; cbn [obj_step ostep oout].
  - eexists _, _. split; [reflexivity|]. split; auto. destruct (inv_release st S d (Some []) (Some zempty) I (or_intror (conj eq_refl eq_refl))) as (m&E&I'&_).
    unfold own in E. rewrite (inv_dead _ _ _ I K) in E. cbn in E. injection E as <-. exact I'.
  - destruct K as [K V]. eexists _, _. split; [reflexivity|]. split; auto. apply inv_take; auto. { unfold own. now rewrite (inv_dead _ _ _ I K). }
    eapply den_ext; [apply (den_add_many [] zempty); auto; apply den_new|]. intros v _. reflexivity.
  - destruct K as [K A]. assert (N : d <> s) by (intros ->; contradiction).
    destruct (overwrite_ok st S d s I A (or_introl N)) as (m&o&E&I'). unfold own in E at 1. rewrite (inv_dead _ _ _ I K) in E. rewrite E. eexists _, _. split; [reflexivity|]. auto.
  - destruct K as [K A]. eexists _, _. split; [reflexivity|]. split; auto. apply inv_move; auto. { unfold own. now rewrite (inv_dead _ _ _ I K). } intros ->. contradiction.
  - destruct K as [A1 A2]. destruct (overwrite_ok st S d s I A2 NS) as (m&o&E&I'). rewrite E. eexists _, _. split; [reflexivity|]. auto.
  - destruct K as [A1 A2]. destruct (inv_clear st S d I) as (st'&E&I'&_&OD). rewrite E. eexists _, _. split; [reflexivity|]. split; auto.
    destruct (Nat.eq_dec d s) as [->|N].
    + eapply inv_ext; [| |exact (inv_eta _ _ I')]; intros i; unfold put.
      * destruct (Nat.eqb_spec i s) as [->|]; auto. unfold clear in E. destruct (ra_clear_containers (mm st) (own st s)); [|discriminate E]. injection E as <-. cbn. apply put_at.
      * destruct (Nat.eqb_spec i s); auto.
    + assert (AS : alive (put S d (Some zempty)) s) by (unfold alive; rewrite put_ne by congruence; exact A2).
      eapply inv_sets; [|exact (inv_move st' _ d s I' OD AS N)]. intros i. unfold put. destruct (Nat.eqb_spec i s), (Nat.eqb_spec i d), (Nat.eqb_spec s d); congruence.
  - destruct K as [A V]. destruct (inv_replace st S d (roaring_bitmap_add_many [] vals) (zlist vals) I) as (st'&E&I').
    { eapply den_ext; [apply (den_add_many [] zempty); auto; apply den_new|]. intros v _. reflexivity. }
    rewrite E. eexists _, _. split; [reflexivity|]. auto.
  - eexists _, _. split; [reflexivity|]. split; auto. now apply inv_swap.
  - destruct (inv_release st S d None None I (or_introl (conj eq_refl eq_refl))) as (m&E&I'&_). rewrite E. eexists _, _. split; [reflexivity|]. auto.
  - now apply call_ok.
Qed.
Definition both (c : ocmd) (S : osets) : Prop := ook c S /\ no_self c S.
Theorem obj_run_ok p : forall st S, inv st S -> oprog both (map fst p) S ->
  exists st' outs, obj_run p st = Some (st', outs) /\ inv st' (orun (map fst p) S) /\ oagrees (map fst p) S outs.
Proof.
  induction p as [|[c ora] p IH]; intros st S I K; cbn [map fst obj_run oprog orun oagrees] in *. { exists st, []. auto. }
  destruct K as [[K1 K2] K]. destruct (obj_step_ok c ora st S I K1 K2) as (st1&a&->&I1&O). destruct (IH st1 _ I1 K) as (st2&outs&->&I2&A). exists st2, (a :: outs). auto.
Qed.

(** ** What the programs reach *)
Definition obj_reaches (p : list (ocmd * oracle)) (st : mach) (S : osets) : Prop :=
  oprog both (map fst p) no_objects /\ S = orun (map fst p) no_objects /\ exists outs, obj_run p obj_start = Some (st, outs).
Lemma reaches_inv p st S : obj_reaches p st S -> inv st S.
Proof.
  intros (K&->&outs&E). destruct (obj_run_ok p obj_start no_objects inv_start K) as (st'&outs'&E'&I&_). rewrite E in E'. now injection E' as <- _.
Qed.
(** the bitmap an object holds; None: not alive, or it holds a pointer to a released container *)
Definition holds_in (st : mach) (i : nat) : option bitmap := match mo st i with Some o => load (mm st) o | None => None end.
Definition object_alive (st : mach) (i : nat) : Prop := mo st i <> None.
Lemma objects_ok p : oprog both (map fst p) no_objects ->
  exists st outs, obj_run p obj_start = Some (st, outs) /\ oagrees (map fst p) no_objects outs /\
    forall i, (alive (orun (map fst p) no_objects) i <-> object_alive st i) /\
      (object_alive st i -> exists r, holds_in st i = Some r /\ denotes r (sets (orun (map fst p) no_objects) i)).
Proof.
  intros K. destruct (obj_run_ok p obj_start no_objects inv_start K) as (st&outs&E&I&A). exists st, outs. split; auto. split; auto. intros i. destruct I as [_ V]. specialize (V i).
  unfold alive, object_alive, holds_in, sets. destruct (mo st i) as [o|], (orun (map fst p) no_objects i) as [P|]; try contradiction V; (split; [intuition congruence|]); intros X; [exact V|congruence].
Qed.
Lemma objects_free p st S : obj_reaches p st S -> (forall i, S i = None) -> forall q, rd (mm st) q = None.
Proof.
  intros R E q. destruct (reaches_inv _ _ _ R) as [O V]. destruct (rd (mm st) q) eqn:X; auto. exfalso. assert (Y : rd (mm st) q <> None) by congruence. apply (w_own _ _ O) in Y as (i&o&H&_).
  specialize (V i). rewrite H, E in V. exact V.
Qed.
Lemma objects_one_owner p st S : obj_reaches p st S -> forall i j k k' x a b, mo st i = Some a -> mo st j = Some b -> In (k, x) a -> In (k', x) b -> i = j.
Proof.
  intros R i j k k' x a b A B I J. destruct (reaches_inv _ _ _ R) as [O _]. apply (w_dj _ _ O i j a b x A B); apply in_map_iff; [now exists (k, x)|now exists (k', x)].
Qed.
(** a self-assignment has a result only when there is no container *)
Lemma self_assign p st S d ora : obj_reaches p st S -> alive S d ->
  (obj_step (OAssign d d) ora st = None <-> ~ same_set (sets S d) zempty).
Proof.
  intros R A. pose proof (reaches_inv _ _ _ R) as I. split.
  - intros E X. destruct (overwrite_ok st S d d I A (or_intror X)) as (m&o&E'&_). cbn [obj_step] in E. rewrite E' in E. discriminate E.
  - intros N. cbn [obj_step]. rewrite overwrite_clone. destruct (inv_mo _ _ _ I A) as (o&r&E&L&D&EO).
    destruct (inv_release st S d (Some []) (Some zempty) I (or_intror (conj eq_refl eq_refl))) as (m&C&_&LE&F). rewrite C. rewrite EO in *. destruct o as [|[k q] t].
    + exfalso. apply N. cbn in L. injection L as <-. intros v V. rewrite <- (den_mem _ _ _ D V). now rewrite (den_mem _ _ _ den_new V).
    + rewrite clone_dangling; auto. exists q. split; [now left|]. assert (X : rd (mm st) q <> None) by (apply (load_ptr _ _ _ _ L); now left). split.
      * rewrite F. cbn. now rewrite Nat.eqb_refl.
      * rewrite LE. destruct (Nat.lt_ge_cases q (length (mm st))); auto. now rewrite rd_fresh in X.
Qed.

(** ** Iterators *)
Import Iter IterP DerivedI.
(** the bitmaps of the model list the members of the specification; each iterator stands
    at its place; the static of end() is past the end of whatever its parent is *)
Definition objs_ok (st : imach) (s : jstate) : Prop :=
  forall o, match i_objs st o, j_objs s o with Some r, Some l => bok r /\ l = elems r | None, None => True | _, _ => False end.
Definition past (x : cit) : Prop := it_idx (c_it x) = 2 ^ 31 - 1 /\ it_has (c_it x) = false /\ it_cur (c_it x) = 2 ^ 32 - 1.
Definition place_ok (st : imach) (p : place) (x : cit) : Prop :=
  if p_end p then past x /\ (forall r, i_objs st (p_obj p) = Some r -> p_pos p = zlen (elems r))
  else c_par x = p_obj p /\ (forall r, i_objs st (p_obj p) = Some r -> ipos r (c_it x) (p_pos p) /\ 0 <= p_pos p).
Definition irel (st : imach) (s : jstate) : Prop :=
  objs_ok st s /\ (forall i, match i_its st i, j_its s i with Some x, Some p => place_ok st p x | None, None => True | _, _ => False end) /\
  match i_end st with Some e => past e | None => True end.
Lemma past_exhausted o : past (exhausted o). Proof. unfold past, exhausted. cbn. auto. Qed.
Lemma past_end st s o : irel st s -> past (end_ o st).
Proof. intros (_&_&E). unfold end_. destruct (i_end st); auto. apply past_exhausted. Qed.
Lemma has_end st s i p l x : irel st s -> i_its st i = Some x -> j_its s i = Some p -> j_objs s (p_obj p) = Some l ->
  0 <= p_pos p <= zlen l /\ it_has (c_it x) = (p_pos p <? zlen l) /\ it_cur (c_it x) = (if p_pos p <? zlen l then znth l (p_pos p) else 2 ^ 32 - 1) /\
  exists r, i_objs st (p_obj p) = Some r /\ bok r /\ l = elems r.
Proof.
  intros (O&I&_) X P L. specialize (O (p_obj p)). rewrite L in O. destruct (i_objs st (p_obj p)) as [r|] eqn:R; [|contradiction O]. destruct O as [B ->].
  specialize (I i). rewrite X, P in I. unfold place_ok in I. pose proof (zlen_nonneg (elems r)). destruct (p_end p).
  - destruct I as ((E1&E2&E3)&I). specialize (I r R). rewrite I. rewrite Z.ltb_irrefl. split; [lia|]. split; auto. split; auto. exists r. auto.
  - destruct I as (E&I). destruct (I r R) as [IP IN]. destruct (ipos_obs _ _ _ B IP) as (A1&A2&A3). replace (0 <=? p_pos p) with true in A2 by (symmetry; apply Z.leb_le; lia). cbn [andb] in A2.
    split; [lia|]. split; auto. split; [now rewrite A3, A2|]. exists r. auto.
Qed.
Lemma incr_znth_lt l i j : incr l -> 0 <= i < j -> j < zlen l -> znth l i < znth l j.
Proof. intros I A B. apply incr_znth; auto; lia. Qed.
Lemma elems_incr r : bok r -> incr (elems r).
Proof. intros B. pose proof (elems_lists r _ (den_self r (proj2 (valid_bok r) B))) as [A _]. now apply incr_SS. Qed.
Lemma cmp_ok l k a b p q : incr l -> 0 <= p <= zlen l -> 0 <= q <= zlen l ->
  it_has a = (p <? zlen l) -> it_has b = (q <? zlen l) ->
  it_cur a = (if p <? zlen l then znth l p else 2 ^ 32 - 1) -> it_cur b = (if q <? zlen l then znth l q else 2 ^ 32 - 1) ->
  cmp_op k a b = compare k p q.
Proof.
  intros I P Q HA HB CA CB. unfold cmp_op, compare. rewrite HA, HB, CA, CB.
  destruct (Z.ltb_spec p (zlen l)) as [LP|LP], (Z.ltb_spec q (zlen l)) as [LQ|LQ].
  - assert (T : (p < q /\ znth l p < znth l q) \/ (p = q /\ znth l p = znth l q) \/ (q < p /\ znth l q < znth l p)).
    { destruct (Z.lt_trichotomy p q) as [H|[->|H]]; [left|right; left|right; right]; auto; split; auto; apply incr_znth_lt; auto; lia. }
    destruct k; cbn [negb Bool.eqb]; rewrite ?andb_true_r, ?orb_false_r; lia.
  - destruct k; cbn [negb Bool.eqb]; rewrite ?andb_false_r, ?orb_true_r; lia.
  - destruct k; cbn [negb Bool.eqb]; rewrite ?andb_false_r, ?orb_true_r; lia.
  - destruct k; cbn [negb Bool.eqb]; rewrite ?andb_true_r, ?orb_false_r, ?Z.eqb_refl; lia.
Qed.
Lemma flen (f : Z -> bool) l : (length (filter f l) <= length l)%nat.
Proof. induction l as [|a l IH]; cbn; [auto|]. destruct (f a); cbn; lia. Qed.
Lemma lb_has l x : (zlen (filter (fun v => v <? x) l) <? zlen l) = existsb (fun v => x <=? v) l.
Proof.
  assert (G : zlen (filter (fun v => v <? x) l) <= zlen l) by (unfold zlen; pose proof (flen (fun v => v <? x) l); lia).
  induction l as [|a l IH]; [reflexivity|]. cbn [filter existsb]. destruct (Z.ltb_spec a x) as [L|L].
  - replace (x <=? a) with false by lia. cbn [orb]. rewrite <- IH by (unfold zlen; pose proof (flen (fun v => v <? x) l); lia). rewrite !zlen_cons. apply eq_true_iff_eq. rewrite !Z.ltb_lt. lia.
  - replace (x <=? a) with true by lia. cbn [orb]. apply Z.ltb_lt. rewrite zlen_cons. unfold zlen. pose proof (flen (fun v => v <? x) l). lia.
Qed.
Lemma irel_set st s i x p : irel st s -> place_ok st p x -> irel (IM (i_objs st) (put (i_its st) i (Some x)) (i_end st)) (JS (j_objs s) (put (j_its s) i (Some p))).
Proof.
  intros (O&I&E) P. split; [exact O|]. split; [|exact E]. intros j. cbn [i_its j_its]. pc j i; [exact P|exact (I j)].
Qed.
Lemma irel_touch st s o : irel st s -> irel (touch_end o st) s.
Proof. intros R. pose proof (past_end st s o R) as P. destruct R as (O&I&E). split; [exact O|]. split; [exact I|]. exact P. Qed.
Definition jboth (c : jcmd) (s : jstate) : Prop := jok c s /\ end_untouched c s.
Lemma its_some st s i p : irel st s -> j_its s i = Some p -> exists x, i_its st i = Some x /\ place_ok st p x.
Proof. intros (_&I&_) E. specialize (I i). rewrite E in I. destruct (i_its st i) as [x|]; [|contradiction I]. exists x. auto. Qed.
Lemma objs_some st s o l : irel st s -> j_objs s o = Some l -> exists r, i_objs st o = Some r /\ bok r /\ l = elems r.
Proof. intros (O&_) E. specialize (O o). rewrite E in O. destruct (i_objs st o) as [r|]; [|contradiction O]. exists r. auto. Qed.
(** a move of an iterator that did not come from end() *)
Lemma move_ok st s i p l f g : irel st s -> j_its s i = Some p -> j_objs s (p_obj p) = Some l -> p_end p = false ->
  (forall r it, bok r -> l = elems r -> ipos r it (p_pos p) -> exists it', f r it = Some it' /\ ipos r it' (g l (p_pos p))) -> 0 <= g l (p_pos p) ->
  exists x y st', i_its st i = Some x /\ on_it st x f = Some y /\ set_it st i (Some y) = Some st' /\ irel st' (move s i g) /\
    j_its (move s i g) i = Some (Place (p_obj p) (g l (p_pos p)) false) /\ j_objs (move s i g) = j_objs s /\ i_its st' i = Some y.
Proof.
  intros R P L E F G. destruct (its_some _ _ _ _ R P) as (x&X&PO). destruct (objs_some _ _ _ _ R L) as (r&RO&B&EL). unfold place_ok in PO. rewrite E in PO. destruct PO as [PA PO].
  destruct (PO r RO) as [IP IN]. destruct (F r (c_it x) B EL IP) as (it'&FE&IP'). exists x, (Cit (c_par x) it'), (IM (i_objs st) (put (i_its st) i (Some (Cit (c_par x) it'))) (i_end st)).
  split; auto. split; [unfold on_it; now rewrite PA, RO, FE|]. split; [reflexivity|]. unfold move. rewrite P, L, E. split.
  - apply irel_set; auto. unfold place_ok. cbn [p_end p_obj p_pos c_par c_it]. split; auto. intros r' RO'. rewrite RO in RO'. injection RO' as <-. auto.
  - cbn. rewrite !put_at. auto.
Qed.
Lemma it_step_ok c st s : irel st s -> jboth c s -> exists st' a, it_step c st = Some (st', a) /\ irel st' (jstep c s) /\ jout c s a.
Proof.
  intros R [K U]. pose proof R as (RO&RI&RE). destruct c; cbn [jok end_untouched] in K, U; cbn [it_step jstep jout].
  - unfold obj_alive in K. destruct (j_objs s o) as [l|] eqn:L; [|contradiction K; reflexivity]. destruct (objs_some _ _ _ _ R L) as (r&RR&B&->). rewrite RR.
    destruct (init_pos r B) as (it&E&IP). rewrite E. cbn [set_it option_map]. eexists _, _. split; [reflexivity|]. split; auto. apply irel_set; auto. unfold place_ok. cbn. split; auto. intros r' RR'. rewrite RR in RR'. injection RR' as <-. split; [auto|lia].
  - unfold obj_alive in K. destruct (j_objs s o) as [l|] eqn:L; [|contradiction K; reflexivity]. destruct (objs_some _ _ _ _ R L) as (r&RR&B&->). cbn [set_it option_map]. eexists _, _. split; [reflexivity|]. split; auto.
    apply irel_set; [now apply irel_touch|]. unfold place_ok. cbn [p_end p_obj p_pos]. split; [exact (past_end _ _ _ R)|]. intros r' RR'. cbn in RR'. rewrite RR in RR'. injection RR' as <-. reflexivity.
  - destruct K as (p&l&P&L&LT). pose proof (U p P) as PE. destruct (its_some _ _ _ _ R P) as (x0&X0&PO).
    destruct (has_end _ _ _ _ _ _ R X0 P L) as (PB&_). 
    destruct (move_ok st s i p l roaring_uint32_iterator_advance (fun _ p => p + 1) R P L PE) as (x&y&st'&X&Y&ST&R'&_).
    { intros r it B EL IP. destruct (advance_pos r it _ B IP) as (it'&E&IP'). exists it'. split; auto. rewrite <- EL in IP'. rewrite Z.min_r in IP' by (unfold len_of, zlen in *; lia). exact IP'. } { lia. }
    rewrite X, Y, ST. cbn [option_map]. eexists _, _. split; [reflexivity|]. auto.
  - destruct K as (p&l&P&L&LT). pose proof (U p P) as PE.
    destruct (move_ok st s i p l roaring_uint32_iterator_previous (fun _ p => p - 1) R P L PE) as (x&y&st'&X&Y&ST&R'&_).
    { intros r it B EL IP. destruct (previous_pos r it _ B IP) as (it'&E&IP'). exists it'. split; auto. rewrite Z.max_r in IP' by lia. exact IP'. } { lia. }
    rewrite X, Y, ST. cbn [option_map]. eexists _, _. split; [reflexivity|]. auto.
  - destruct K as (p&l&P&L&V). pose proof (U p P) as PE. set (g := fun (l : list Z) (_ : Z) => len_of (filter (fun v => v <? x) l)).
    destruct (move_ok st s i p l (fun r it => roaring_uint32_iterator_move_equalorlarger r it x) g R P L PE) as (x0&y&st'&X&Y&ST&R'&PJ&OJ&IY).
    { intros r it B EL IP. destruct (seek_pos r it _ x B IP V) as (it'&E&IP'). exists it'. split; auto. rewrite <- EL in IP'. exact IP'. } { unfold g, len_of. lia. }
    rewrite X, Y, ST. cbn [option_map]. eexists _, _. split; [reflexivity|]. split; auto. exists p, l. split; auto. split; auto. f_equal.
    assert (L' : j_objs (move s i g) (p_obj (Place (p_obj p) (g l (p_pos p)) false)) = Some l) by (rewrite OJ; exact L).
    destruct (has_end _ _ _ _ _ _ R' IY PJ L') as (_&H&_). rewrite H. cbn [p_pos]. apply lb_has.
  - contradiction U.
  - destruct K as (p&l&P&L&LT). destruct (its_some _ _ _ _ R P) as (x&X&PO). rewrite X. destruct (has_end _ _ _ _ _ _ R X P L) as (PB&_&HC&_). eexists _, _. split; [reflexivity|]. split; auto.
    exists p, l. split; auto. split; auto. rewrite HC. replace (p_pos p <? zlen l) with true by (symmetry; apply Z.ltb_lt; exact LT). reflexivity.
  - destruct K as (p&l&P&L&q&l'&Q&L'&E). rewrite E in L'. rewrite L in L'. injection L' as <-. destruct (its_some _ _ _ _ R P) as (x&X&_). destruct (its_some _ _ _ _ R Q) as (y&Y&_). rewrite X, Y.
    assert (LQ : j_objs s (p_obj q) = Some l) by (rewrite E; exact L). destruct (has_end _ _ _ _ _ _ R X P L) as (A1&A2&A3&r&RR&B&EL). destruct (has_end _ _ _ _ _ _ R Y Q LQ) as (B1&B2&B3&_).
    eexists _, _. split; [reflexivity|]. split; auto. exists p, l. split; auto. split; auto. exists q, l. split; auto. split; auto. f_equal. apply (cmp_ok l); auto. rewrite EL. now apply elems_incr.
  - destruct K as (p&l&P&L&E). subst o. destruct (its_some _ _ _ _ R P) as (x&X&_). rewrite X. destruct (has_end _ _ _ _ _ _ R X P L) as (A1&A2&A3&r&RR&B&EL). destruct (past_end st s (p_obj p) R) as (_&E2&E3).
    eexists _, _. split; [reflexivity|]. split; [now apply irel_touch|]. exists p, l. split; auto. split; auto. f_equal. unfold len_of. fold (zlen l). apply (cmp_ok l); auto.
    + rewrite EL. now apply elems_incr.
    + pose proof (zlen_nonneg l). lia.
    + now rewrite Z.ltb_irrefl.
    + now rewrite Z.ltb_irrefl.
  - eexists _, _. split; [reflexivity|]. split; auto. split; [|split; [|exact RE]].
    + intros o'. cbn. pc o' o; [exact I|exact (RO o')].
    + intros i. cbn. specialize (RI i). destruct (i_its st i) as [x|], (j_its s i) as [p|]; auto. unfold place_ok in *. destruct (p_end p).
      * split; [apply RI|]. intros r RR. cbn in RR. unfold put in RR. destruct (Nat.eqb (p_obj p) o); [discriminate RR|now apply RI].
      * split; [apply RI|]. intros r RR. cbn in RR. unfold put in RR. destruct (Nat.eqb (p_obj p) o); [discriminate RR|now apply RI].
Qed.
Theorem it_run_ok p : forall st s, irel st s -> jprog jboth p s -> exists st' outs, it_run p st = Some (st', outs) /\ irel st' (jrun p s) /\ jagrees p s outs.
Proof.
  induction p as [|c p IH]; intros st s R K; cbn [it_run jprog jrun jagrees] in *. { exists st, []. auto. }
  destruct K as [K1 K]. destruct (it_step_ok c st s R K1) as (st1&a&->&R1&O). destruct (IH st1 _ R1 K) as (st2&outs&->&R2&A). exists st2, (a :: outs). auto.
Qed.

(** ** Statements on the sets of values *)
(** objects and their sets, no iterator yet, end() not yet called *)
Definition imach_of (f : nat -> option bitmap) : imach := IM f (fun _ => None) None.
Definition jstate_of (f : nat -> option (list Z)) : jstate := JS f (fun _ => None).
(** the objects that are alive hold the listed sets *)
Definition lists_objs (f : nat -> option bitmap) (L : nat -> option (list Z)) : Prop :=
  forall o, match f o, L o with Some r, Some l => exists P, denotes r P /\ lists P l | None, None => True | _, _ => False end.
Lemma start_irel f L : lists_objs f L -> irel (imach_of f) (jstate_of L).
Proof.
  intros H. split; [|split; [|exact I]].
  - intros o. cbn. specialize (H o). destruct (f o) as [r|], (L o) as [l|]; auto. destruct H as (P&D&LP). split; [exact (den_bok _ _ D)|exact (lists_elems _ _ _ D LP)].
  - intros i. exact I.
Qed.
Lemma iterators_ok f L p : lists_objs f L -> jprog jboth p (jstate_of L) ->
  exists st outs, it_run p (imach_of f) = Some (st, outs) /\ jagrees p (jstate_of L) outs.
Proof. intros H K. destruct (it_run_ok p _ _ (start_irel f L H) K) as (st&outs&E&_&A). exists st, outs. auto. Qed.
Lemma skipn_cons_nth n (l : list Z) : (n < length l)%nat -> skipn n l = nth n l 0 :: skipn (Datatypes.S n) l.
Proof. revert n. induction l as [|a l IH]; intros [|n] H; cbn [length] in H; try lia; [reflexivity|]. cbn [skipn nth]. rewrite IH by lia. reflexivity. Qed.
Lemma for_loop_ok st o r e : bok r -> i_objs st o = Some r -> end_ o st = e -> past e -> forall n it p fuel, ipos r it p -> 0 <= p -> zlen (elems r) - p = Z.of_nat n -> (n < fuel)%nat ->
  for_loop fuel st o (Cit o it) = Some (skipn (Z.to_nat p) (elems r)).
Proof.
  intros B RO EE (_&EH&EC). induction n as [|n IH]; intros it p fuel IP P0 PN FU; (destruct fuel as [|fuel]; [lia|]); cbn [for_loop c_it]; rewrite EE;
    destruct (ipos_obs _ _ _ B IP) as (PB&HH&HC); replace (0 <=? p) with true in HH by (symmetry; apply Z.leb_le; lia); cbn [andb] in HH; cbn [cmp_op]; rewrite EH, EC, HC, HH.
  - replace (p <? zlen (elems r)) with false by (symmetry; apply Z.ltb_ge; lia). rewrite Z.eqb_refl. cbn [negb orb Bool.eqb]. rewrite skipn_all2; [reflexivity|]. unfold zlen in PN. lia.
  - replace (p <? zlen (elems r)) with true by (symmetry; apply Z.ltb_lt; lia). cbn [Bool.eqb negb]. rewrite orb_true_r. unfold on_it. cbn [c_par c_it]. rewrite RO.
    destruct (advance_pos r it p B IP) as (it'&->&IP'). rewrite Z.min_r in IP' by lia. rewrite (IH it' (p + 1) fuel IP') by lia. cbn [option_map]. f_equal.
    rewrite (skipn_cons_nth (Z.to_nat p) (elems r)) by (unfold zlen in PN; lia). f_equal. f_equal. lia.
Qed.
(** the state after any program that left end() alone *)
Lemma range_for_ok f L p st outs o l : lists_objs f L -> jprog jboth p (jstate_of L) -> it_run p (imach_of f) = Some (st, outs) ->
  j_objs (jrun p (jstate_of L)) o = Some l -> forall fuel, (length l < fuel)%nat -> range_for fuel st o = Some l.
Proof.
  intros H K E LO fuel FU. destruct (it_run_ok p _ _ (start_irel f L H) K) as (st'&outs'&E'&R&_). rewrite E in E'. injection E' as <- <-.
  destruct (objs_some _ _ _ _ R LO) as (r&RO&B&->). unfold range_for. rewrite RO. destruct (init_pos r B) as (it&->&IP).
  rewrite (for_loop_ok st o r _ B RO eq_refl (past_end _ _ o R) (length (elems r)) it 0 fuel IP); auto; unfold zlen; lia.
Qed.

(** ** Refutations *)
Definition objs2 (a b : bitmap) : nat -> option bitmap := fun i => match i with O => Some a | 1%nat => Some b | _ => None end.
Definition lists2 (a b : list Z) : nat -> option (list Z) := fun i => match i with O => Some a | 1%nat => Some b | _ => None end.
(** two objects, {3} and {1, 8} *)
Definition ex_f := objs2 (roaring_bitmap_add_many [] [3]) (roaring_bitmap_add_many [] [1; 8]).
Definition ex_L := lists2 [3] [1; 8].
Lemma zlist_lists l : Sorted.StronglySorted Z.lt l -> (forall v, In v l -> val32 v) -> lists (zlist l) l.
Proof.
  intros A B. split; auto. intros v. unfold zlist. rewrite existsb_exists. split.
  - intros I. split; auto. exists v. split; auto. apply Z.eqb_refl.
  - intros (_&x&I&E). apply Z.eqb_eq in E. now subst.
Qed.
Lemma many_lists vals : Sorted.StronglySorted Z.lt vals -> (forall v, In v vals -> val32 v) -> exists P, denotes (roaring_bitmap_add_many [] vals) P /\ lists P vals.
Proof.
  intros A B. exists (zlist vals). split; [|now apply zlist_lists]. eapply den_ext; [apply (den_add_many [] zempty); auto; apply den_new|]. intros v _. reflexivity.
Qed.
Lemma ex_ok : lists_objs ex_f ex_L.
Proof.
  assert (S1 : Sorted.StronglySorted Z.lt [3]) by (repeat constructor).
  assert (S2 : Sorted.StronglySorted Z.lt [1; 8]) by (repeat constructor).
  intros [|[|o]]; cbn [ex_f ex_L objs2 lists2]; [| |exact I]; apply many_lists; auto; cbn [In]; unfold val32; intuition lia.
Qed.
Ltac ji := cbn; repeat match goal with |- _ /\ _ => split end; unfold at_it, obj_alive; cbn; try discriminate; try lia;
  try (eexists _, _; split; [reflexivity|]; split; [reflexivity|]; cbn; unfold val32; try lia).
(** end() of the second object, after end() of the first was called: going back one step
    from it gives the last value of the first object *)
Definition ex_back : list jcmd := [JEnd 0 0; JEnd 1 1; JDec 1; JRead 1].
Lemma end_back_refuted : exists f L p st outs, lists_objs f L /\ jprog jok p (jstate_of L) /\ it_run p (imach_of f) = Some (st, outs) /\ ~ jagrees p (jstate_of L) outs.
Proof.
  exists ex_f, ex_L, ex_back. eexists _, _. split; [exact ex_ok|]. split; [|split; [vm_compute; reflexivity|]].
  - unfold ex_back, ex_L. ji.
  - cbn. intros (_&_&_&(q&l&Q&LQ&X)&_). injection Q as <-. cbn in LQ. injection LQ as <-. cbn in X. discriminate X.
Qed.
(** the same when the first object is gone: the iterator reads a dead object *)
Lemma end_dangling_refuted : exists f L p, lists_objs f L /\ jprog jok p (jstate_of L) /\ it_run p (imach_of f) = None.
Proof.
  exists ex_f, ex_L, [JEnd 0 0; JDestroy 0; JEnd 1 1; JDec 1]. split; [exact ex_ok|]. split; [|vm_compute; reflexivity]. unfold ex_L. ji.
Qed.
(** --a.end() moves the end of every object: no loop over the first object runs *)
Lemma end_shared_refuted : exists f L p st outs l, lists_objs f L /\ jprog jok p (jstate_of L) /\ it_run p (imach_of f) = Some (st, outs) /\
  L 0%nat = Some l /\ l <> [] /\ forall fuel, (0 < fuel)%nat -> range_for fuel st 0 = Some [].
Proof.
  exists ex_f, ex_L, [JDecEnd 0]. eexists _, _, [3]. split; [exact ex_ok|]. split; [|split; [vm_compute; reflexivity|]].
  - unfold ex_L. ji.
  - split; [reflexivity|]. split; [discriminate|]. intros [|fuel] F; [lia|]. vm_compute. reflexivity.
Qed.
(** a legal program whose only fault is r = r *)
Lemma self_assign_refuted : exists p, oprog ook (map fst p) no_objects /\ obj_run p obj_start = None.
Proof.
  exists (map (fun c => (c, {| osh := fun _ => false; ocap := fun _ => 0 |})) [OList 0 [1; 2]; OAssign 0 0]). split; [|vm_compute; reflexivity].
  cbn. unfold alive, put. cbn. repeat split; auto; try discriminate; unfold val32 in *; intuition lia.
Qed.
(** r ^= r and r -= r fail an assertion, whatever r holds *)
Lemma self_xor_refuted p st S d ora c : obj_reaches p st S -> alive S d -> c = KXorInplace d d \/ c = KAndnotInplace d d -> obj_step (OCall c) ora st = None.
Proof.
  intros R A C. cbn [obj_step]. unfold call. destruct (load_names st (mentions c)); auto. replace (asserts c) with false; auto.
  destruct C as [-> | ->]; cbn [asserts]; now rewrite Nat.eqb_refl.
Qed.

(** ** Examples of programs *)
Definition ora0 : oracle := {| osh := fun _ => false; ocap := fun _ => 0 |}.
(** 0 = {1, 70000}; 1 = copy; 1 += 5; 2 = moved from 0; 0 |= 1; swap; destroy all *)
Definition ex_objects : list ocmd :=
  [OList 0 [1; 70000]; OCopy 1 0; OCall (KAdd 1 5); OMove 2 0; OCall (QCardinality 0); OCall (KOrInplace 0 1); OCall (QToArray 0); OSwap 0 2;
   OAssign 1 0; OCall (QEquals 1 0); OMoveAssign 1 2; OMoveAssign 1 1; OAssignList 1 [9]; OCall (QToArray 1); OCall (KXor 1 0 1); OCall (QToArray 1);
   ODestroy 0; ODestroy 1; ODestroy 2].
Lemma ex_objects_ok : oprog both ex_objects no_objects.
Proof.
  unfold ex_objects, both. cbn. unfold alive, put, no_objects. cbn.
  repeat match goal with |- _ /\ _ => split | |- True => exact I | |- _ = _ => reflexivity | |- Some _ <> None => discriminate
    | |- Forall _ _ => constructor | |- forall v, _ -> val32 v => let H := fresh in intros ? H; unfold val32; intuition lia | |- val32 _ => unfold val32; lia | |- _ \/ _ => left; discriminate end; cbn; auto; try discriminate.
Qed.
Definition ex_its : list jcmd :=
  [JBegin 0 1; JEnd 1 1; JCmp CNe 0 1; JRead 0; JInc 0; JRead 0; JCmpEnd CLt 0 1; JBegin 2 0; JDestroy 0; JInc 0; JCmpEnd CEq 0 1; JDec 0; JRead 0; JSeek 0 2; JRead 0; JSeek 0 9; JCmp CGe 0 1].
Lemma ex_its_ok : jprog jboth ex_its (jstate_of ex_L).
Proof.
  unfold ex_its, jboth. cbn. unfold at_it, obj_alive. cbn.
  repeat match goal with
  | |- _ /\ _ => split
  | |- True => exact I
  | |- Some _ <> None => discriminate
  | |- exists _, _ => eexists
  | |- _ = _ => reflexivity
  | |- forall p, Some _ = Some p -> _ => let p := fresh in let H := fresh in intros p H; injection H as <-; reflexivity
  | |- val32 _ => unfold val32; lia
  | |- (_ < _)%Z => cbn; lia
  end.
Qed.
