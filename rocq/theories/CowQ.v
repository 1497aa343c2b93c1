(** CowQ: the union of many bitmaps with a queue (src/roaring_priority_queue.c) in the
    machine of CowH.v: bitmaps that share containers.  The intermediate results hold
    references of their own. *)
From Coq Require Import ZArith List Bool Lia Permutation.
From Verif Require Import Base ArrayUtil BitUtil BitsetC ArrayC RunC RunD Convert MixedI MixedU MixedA MixedN Containers RArray RBinary RPoint RRange RQuery RStat RShift Bytes Serial Heap Spec Obs DerivedS Hist Cow CowH.
Import ListNotations.
Local Open Scope Z_scope.
Local Opaque zr.

(** ** Code *)
(** roaring_priority_queue.c:12-18: an element of the queue is a bitmap of the caller or
    an intermediate result.  Which one comes out next depends on the sizes of the bitmaps
    (Heap.v); here it may be any of them: the i-th, or the last *)
Inductive qelem : Type := QReg (s : nat) | QTmp (x : hbm).
Fixpoint poll {A} (i : nat) (x : A) (t : list A) : A * list A :=
  match i, t with
  | S j, y :: u => let '(z, r) := poll j y u in (z, x :: r)
  | _, _ => (x, t)
  end.
(** roaring_priority_queue.c:138-151: the union of two containers that are not shared *)
Definition lazy_both (cap : Z -> Z) (k : Z) (c1 c2 : container) : container :=
  if is_bitset c2 && negb (is_bitset c1) then container_lazy_ior (cap k) c2 c1 else container_lazy_ior (cap k) c1 c2.
(** roaring_priority_queue.c:99-192 lazy_or_from_lazy_inputs: under a common key both
    slots are unshared, the other slots move into the answer as they are *)
Fixpoint merge_both (cap : Z -> Z) (es1 : hmap) {struct es1} : hmap -> M hmap :=
  fix go (es2 : hmap) {struct es2} : M hmap :=
  match es1, es2 with
  | [], _ => ret es2
  | _, [] => ret es1
  | (k1, h1) :: t1, (k2, h2) :: t2 =>
    if k1 =? k2 then
      c1 <- get_writable_copy_if_shared h1 ;; c2 <- get_writable_copy_if_shared h2 ;;
      t <- merge_both cap t1 t2 ;; ret ((k1, Own (lazy_both cap k1 c1 c2)) :: t)
    else if k1 <? k2 then t <- merge_both cap t1 es2 ;; ret ((k1, h1) :: t)
    else t <- go t2 ;; ret ((k2, h2) :: t)
  end.
(** 103-113: an empty operand is dropped and the other one is the answer; otherwise the
    answer is a new bitmap, whose flag nobody sets *)
Definition both_flag (x1 x2 : hbm) : bool :=
  match hsl x1, hsl x2 with [], _ => hcow x2 | _, [] => hcow x1 | _, _ => false end.
(** lazy_or and lazy_or_inplace without bitsetconversion (roaring.c:2253-2277, 2343-2376) *)
Definition qlazy_op (_ : Z) (c1 c2 : container) : option container := Some (container_lazy_or c1 c2).
Definition qlazy_act (cap : Z -> Z) := act_lazy_or (fun k c1 c2 => Some (container_lazy_ior (cap k) c1 c2)).
(** roaring_priority_queue.c:220-223, 225-229: a bitmap of the caller goes into an
    intermediate result *)
Definition into_tmp (cap : Z -> Z) (x : hbm) (s : nat) (w : world) : option (world * hbm) :=
  match merge_in (qlazy_act cap) true true (hcow (wr w s)) (hsl x) (hsl (wr w s)) (wm w) with
  | Some (m, (a, es)) => Some (W m (put (wr w) s (HB (hcow (wr w s)) es)), HB (in_flag true x (wr w s)) a)
  | None => None
  end.
(** roaring_priority_queue.c:210-240: two elements become one *)
Definition heap_pair (cap : Z -> Z) (x1 x2 : qelem) (w : world) : option (world * hbm) :=
  match x1, x2 with
  | QTmp a, QTmp b =>
    match merge_both cap (hsl a) (hsl b) (wm w) with Some (m, es) => Some (W m (wr w), HB (both_flag a b) es) | None => None end
  | QReg s, QTmp b => into_tmp cap b s w
  | QTmp a, QReg t => into_tmp cap a t w
  | QReg s, QReg t =>
    let b1 := hcow (wr w s) in let b2 := hcow (wr w t) in
    if Nat.eqb s t then
      match merge_self qlazy_op (hsl (wr w s)) (wm w) with Some (m, ans) => Some (W m (wr w), HB (b1 || b2) ans) | None => None end
    else
      match merge_new get_copy_of_container qlazy_op true true b1 b2 (hsl (wr w s)) (hsl (wr w t)) (wm w) with
      | Some (m, (es1, es2, ans)) => Some (W m (put (put (wr w) s (HB b1 es1)) t (HB b2 es2)), HB (b1 || b2) ans)
      | None => None
      end
  end.
(** roaring_priority_queue.c:209-242: [n]: the rounds, one less than the elements *)
Fixpoint heap_rounds (cap : Z -> Z) (n : nat) (order : list (nat * nat)) (x : qelem) (t : list qelem) (w : world) : option (world * hbm) :=
  match n with
  | O => match x with QTmp a => Some (w, a) | QReg _ => None end
  | S m =>
    let '(x1, l) := poll (fst (hd (O, O) order)) x t in
    match l with
    | [] => None
    | y :: u =>
      let '(x2, l') := poll (snd (hd (O, O) order)) y u in
      match heap_pair cap x1 x2 w with
      | Some (w1, newb) => heap_rounds cap m (tl order) (QTmp newb) l' w1
      | None => None
      end
    end
  end.
(** roaring_priority_queue.c:200-247 roaring_bitmap_or_many_heap: the answer, not stored
    in a variable yet *)
Definition or_many_heap (cap : Z -> Z) (order : list (nat * nat)) (ss : list nat) (w : world) : option (world * hbm) :=
  match ss with
  | [] => Some (w, HB false [])
  | [s] =>
    match ra_append_copy_range (hcow (wr w s)) (hsl (wr w s)) (wm w) with
    | Some (m, (es, ans)) => Some (W m (put (wr w) s (HB (hcow (wr w s)) es)), HB (hcow (wr w s)) ans)
    | None => None
    end
  | s :: t =>
    match heap_rounds cap (length t) order (QReg s) (map QReg t) w with
    | Some (w1, x) =>
      match map_writable container_repair_after_lazy (hsl x) (wm w1) with
      | Some (m, es) => Some (W m (wr w1), HB (hcow x) es)
      | None => None
      end
    | None => None
    end
  end.
(** d = or_many_heap(ss), without and with the flag set by the caller afterwards *)
Definition plain_or_heap (d : nat) (cap : Z -> Z) (order : list (nat * nat)) (ss : list nat) (w : world) : step_res :=
  match or_many_heap cap order ss w with Some (w1, x) => free_put d x w1 | None => None end.
Definition flag_or_heap (b : bool) (d : nat) (cap : Z -> Z) (order : list (nat * nat)) (ss : list nat) (w : world) : step_res :=
  match or_many_heap cap order ss w with Some (w1, x) => free_put d (HB b (hsl x)) w1 | None => None end.

(** *** Programs: the calls of CowH.v and unions with a queue *)
Inductive qcmd : Type := QCall (c : cmd) (o : oracle) | QHeapOr (d : nat) (ss : list nat) (cap : Z -> Z) (order : list (nat * nat)).
Definition qstep (b : bool) (c : qcmd) (w : world) : step_res :=
  match c with QCall c o => hstep b c o w | QHeapOr d ss cap order => flag_or_heap b d cap order ss w end.
Fixpoint qexec (b : bool) (tr : list qcmd) (w : world) : option (world * list out) :=
  match tr with
  | [] => Some (w, [])
  | c :: tr' =>
    match qstep b c w with
    | Some (w1, a) => match qexec b tr' w1 with Some (w2, l) => Some (w2, a :: l) | None => None end
    | None => None
    end
  end.
(** the call of the specification (Spec.v) a command stands for *)
Definition call_of (c : qcmd) : cmd := match c with QCall c _ => c | QHeapOr d ss _ _ => KOrManyHeap d ss end.
(** the calls the theorem is about: all but remove_many *)
Definition qmodelled (c : qcmd) : Prop := match c with QCall c _ => modelled c | QHeapOr _ _ _ _ => True end.

(** ** Proofs *)
Definition thandles (e : qelem) : list handle := match e with QTmp x => hs (hsl x) | QReg _ => [] end.
Definition qhs (l : list qelem) : list handle := flat_map thandles l.
Definition qval (m : smem) (V : nat -> bitmap) (e : qelem) (r : bitmap) : Prop :=
  match e with QReg s => r = V s | QTmp x => hval m (hsl x) = Some r /\ gok lne 0 r end.
Lemma refs_perm l a b : Permutation a b -> refs l a = refs l b.
Proof. induction 1; rsimp; lia. Qed.
Lemma qhs_perm l l' : Permutation l l' -> Permutation (qhs l) (qhs l').
Proof. intros P. unfold qhs. now apply Permutation_flat_map. Qed.
Lemma poll_perm {A} i : forall (x : A) t, Permutation (x :: t) (fst (poll i x t) :: snd (poll i x t)).
Proof.
  induction i as [|i IH]; intros x t; [reflexivity|]. destruct t as [|y u]; [reflexivity|]. cbn [poll]. specialize (IH y u). destruct (poll i y u) as [z r]. cbn [fst snd] in *.
  rewrite IH. apply perm_swap.
Qed.
Lemma existsb_perm {A} (f : A -> bool) l l' : Permutation l l' -> existsb f l = existsb f l'.
Proof.
  induction 1 as [|e l l' P IH|e e' l|l l' l'' P1 IH1 P2 IH2]; cbn [existsb]; [reflexivity|now rewrite IH| |congruence].
  rewrite !orb_assoc. f_equal. apply orb_comm.
Qed.
Lemma merge_both_cons cap k1 h1 t1 k2 h2 t2 :
  merge_both cap ((k1, h1) :: t1) ((k2, h2) :: t2) =
    if k1 =? k2 then
      c1 <- get_writable_copy_if_shared h1 ;; c2 <- get_writable_copy_if_shared h2 ;;
      t <- merge_both cap t1 t2 ;; ret ((k1, Own (lazy_both cap k1 c1 c2)) :: t)
    else if k1 <? k2 then t <- merge_both cap t1 ((k2, h2) :: t2) ;; ret ((k1, h1) :: t)
    else t <- merge_both cap ((k1, h1) :: t1) t2 ;; ret ((k2, h2) :: t).
Proof. reflexivity. Qed.
Lemma merge_both_ok b cap : forall es1 es2 lo m r1 r2 F, gok lne lo r1 -> gok lne lo r2 ->
  inv b m (hs es1 ++ hs es2 ++ F) -> hval m es1 = Some r1 -> hval m es2 = Some r2 ->
  exists m' es r, merge_both cap es1 es2 m = Some (m', es) /\ inv b m' (hs es ++ F) /\ keeps F m m' /\ hval m' es = Some r /\
    bmrep lne lo r (fun k x => km r1 k x || km r2 k x).
Proof.
  assert (Hl : forall p, orb p false = true && p) by (intros []; auto). assert (Hr : forall p, orb false p = true && p) by (intros []; auto).
  induction es1 as [|[k1 h1] t1 IH1].
  { intros es2 lo m r1 r2 F G1 G2 I V1 V2. injection V1 as <-. exists m, es2, r2.
    split; [destruct es2; reflexivity|]. split; [exact I|]. split; [apply keeps_refl|]. split; [exact V2|]. exact (bm_nil_l lne lne orb true Hr (fun _ c X => X) lo r2 G2). }
  induction es2 as [|[k2 h2] t2 IH2].
  { intros lo m r1 r2 F G1 G2 I V1 V2. injection V2 as <-. exists m, ((k1, h1) :: t1), r1.
    split; [reflexivity|]. split; [exact I|]. split; [apply keeps_refl|]. split; [exact V1|]. exact (bm_nil_r lne lne orb true Hl (fun _ c X => X) lo r1 G1). }
  intros lo m r1 r2 F G1 G2 I V1 V2. rewrite merge_both_cons.
  pose proof V1 as W1. pose proof V2 as W2. apply hval_cons in V1 as (c1&r1'&->&U1&V1). apply hval_cons in V2 as (c2&r2'&->&U2&V2).
  pose proof G1 as H1. pose proof G2 as H2. apply gok_cons in H1 as (L1&D1&T1). apply gok_cons in H2 as (L2&D2&T2).
  destruct (Z.eqb_spec k1 k2) as [<-|NE]; [|destruct (Z.ltb_spec k1 k2) as [LT|GE]].
  - assert (I0 : inv b m (h1 :: h2 :: hs t1 ++ hs t2 ++ F)) by iv I.
    destruct (writable_ok b m h1 c1 _ I0 U1) as (m1&E1&I1&K1). assert (U2' : unwrap m1 h2 = Some c2) by uk K1 U2.
    destruct (writable_ok b m1 h2 c2 _ I1 U2') as (m2&E2&I2&K2).
    assert (V1' : hval m1 t1 = Some r1') by hk K1 V1. assert (V2' : hval m1 t2 = Some r2') by hk K1 V2.
    assert (V1'' : hval m2 t1 = Some r1') by hk K2 V1'. assert (V2'' : hval m2 t2 = Some r2') by hk K2 V2'.
    destruct (IH1 t2 (k1 + 1) m2 r1' r2' F T1 T2 I2 V1'' V2'') as (m'&es&r&E&I3&K&Ve&R).
    exists m', ((k1, Own (lazy_both cap k1 c1 c2)) :: es), ((k1, lazy_both cap k1 c1 c2) :: r).
    unfold bind at 1. rewrite E1. unfold bind at 1. rewrite E2. unfold bind at 1. rewrite E. split; [reflexivity|].
    split; [iv I3|]. split; [assert (K12 : keeps F m m2) by (kt K1 K2; kk K2); eapply keeps_trans; [exact K12|exact K|intros l; lia]|].
    split; [apply hval_cons_eq; [reflexivity|exact Ve]|].
    apply (bm_eq lne lne lne orb true Hl lo k1 c1 c2 r1' r2' (Some (lazy_both cap k1 c1 c2)) r G1 G2); [|exact R]. exact (opok_lazy_inputs cap k1 c1 c2 D1 D2).
  - assert (G2' : gok lne (k1 + 1) ((k2, c2) :: r2')) by (apply gok_cons; split; [lia|split; [exact D2|exact T2]]).
    assert (I' : inv b m (hs t1 ++ hs ((k2, h2) :: t2) ++ h1 :: F)) by iv I.
    destruct (IH1 ((k2, h2) :: t2) (k1 + 1) m r1' _ (h1 :: F) T1 G2' I' V1 W2) as (m'&es&r&E&I2&K&Ve&R).
    exists m', ((k1, h1) :: es), ((k1, c1) :: r). unfold bind at 1. rewrite E. split; [reflexivity|].
    split; [iv I2|]. split; [kk K|]. split; [apply hval_cons_eq; [uk K U1|exact Ve]|].
    exact (bm_left lne lne lne orb true Hl (fun _ c X => X) lo k1 c1 r1' ((k2, c2) :: r2') r G1 G2' R).
  - assert (G1' : gok lne (k2 + 1) ((k1, c1) :: r1')) by (apply gok_cons; split; [lia|split; [exact D1|exact T1]]).
    assert (I' : inv b m (hs ((k1, h1) :: t1) ++ hs t2 ++ h2 :: F)) by iv I.
    destruct (IH2 (k2 + 1) m _ r2' (h2 :: F) G1' T2 I' W1 V2) as (m'&es&r&E&I2&K&Ve&R).
    exists m', ((k2, h2) :: es), ((k2, c2) :: r). unfold bind at 1. rewrite E. split; [reflexivity|].
    split; [iv I2|]. split; [kk K|]. split; [apply hval_cons_eq; [uk K U2|exact Ve]|].
    exact (bm_right lne lne lne orb true true Hl Hr (fun _ c X => X) lo k2 c2 ((k1, c1) :: r1') r2' r G1' G2 R).
Qed.
Lemma qlazy_act_ok b cap : act_ok b lne cok lne orb (qlazy_act cap).
Proof.
  pose proof (opok_lazy_ior cap false cok cok_lne) as H. apply act_lazy_or_ok.
  - intros c1 c2 A B Fu. specialize (H 0 c1 c2 A B). cbn beta in H. rewrite Fu in H. exact H.
  - intros k c1 c2 A B Fu. specialize (H k c1 c2 A B). cbn beta in H. rewrite Fu in H. exact H.
Qed.
Lemma or_l : forall p, orb p false = true && p. Proof. intros []; auto. Qed.
Lemma or_r : forall p, orb false p = true && p. Proof. intros []; auto. Qed.
Definition paired (b : bool) (V : nat -> bitmap) (T : list handle) (m : smem) (P : Z -> Z -> bool) (res : option (world * hbm)) : Prop :=
  exists N w' x r, res = Some (w', x) /\ wok N b (wm w') (wr w') V (hs (hsl x) ++ T) /\ keeps T m (wm w') /\ hval (wm w') (hsl x) = Some r /\ bmrep lne 0 r P.
Lemma paired_ext b V T m P Q res : paired b V T m P res -> (forall k x, P k x = Q k x) -> paired b V T m Q res.
Proof. intros (N&w'&x&r&E&H&K&Vx&R) X. exists N, w', x, r. repeat split; auto; try apply H; try apply R. intros k y Hk Hy. rewrite <- X. now apply R. Qed.
Lemma into_tmp_ok N b cap w V T x s r : (forall i, bok (V i)) -> wok N b (wm w) (wr w) V (hs (hsl x) ++ T) -> hval (wm w) (hsl x) = Some r -> gok lne 0 r ->
  paired b V T (wm w) (fun k y => km r k y || km (V s) k y) (into_tmp cap x s w).
Proof.
  intros BV H Vx G. apply (wok_grow N (Nat.max N (S s))) in H; [|lia]. set (N' := Nat.max N (S s)) in *. assert (L : (s < N')%nat) by lia. clearbody N'.
  pose proof (open1 _ _ _ _ _ _ s H L) as I. pose proof H as (_&Fl&_&HW).
  assert (I' : inv b (wm w) (hs (hsl x) ++ hs (hsl (wr w s)) ++ allh (put (wr w) s (blank b)) N' ++ T)) by iv I.
  destruct (merge_in_ok b (qlazy_act cap) true true lne cok lne orb (qlazy_act_ok b cap) or_l or_r (fun _ c X => X) (fun _ c X => cok_lne c X) (hsl x) (hsl (wr w s)) 0 (wm w) r (V s) _ G (BV s) I' Vx (HW s))
    as (m'&a&es&r'&E&J&K&W1&W2&R).
  unfold into_tmp. rewrite Fl, E. exists N'. eexists. eexists. exists r'. split; [reflexivity|]. cbn [wm wr hsl].
  split; [|split; [kk K|split; [exact W1|exact R]]].
  eapply wok_ext; [eapply (close1 N' b (wm w) (wr w) V _ m' s es (V s)); [exact H|exact L| |kk K|exact W2]|intros i; symmetry; apply put_id]. iv J.
Qed.
Lemma heap_pair_ok N b cap w V T x1 x2 r1 r2 : (forall i, bok (V i)) -> wok N b (wm w) (wr w) V (thandles x1 ++ thandles x2 ++ T) ->
  qval (wm w) V x1 r1 -> qval (wm w) V x2 r2 -> paired b V T (wm w) (fun k y => km r1 k y || km r2 k y) (heap_pair cap x1 x2 w).
Proof.
  intros BV H Q1 Q2. destruct x1 as [s|a], x2 as [t|c]; cbn [thandles qval heap_pair app] in *.
  - subst r1 r2. set (N' := Nat.max N (Datatypes.S (Nat.max s t))). apply (wok_grow N N') in H; [|lia]. assert (L1 : (s < N')%nat) by lia. assert (L2 : (t < N')%nat) by lia. clearbody N'.
    pose proof H as (_&Fl&_&HW). rewrite !Fl, orb_diag. cbn zeta. assert (Hop : opok cok cok lne orb qlazy_op).
    { intros k c1 c2 A B. exact (opok_lazy_or cok false cok_lne k c1 c2 (cok_lne _ A) B). }
    destruct (Nat.eqb_spec s t) as [E|E].
    + subst t. destruct (merge_self_ok qlazy_op cok lne orb Hop eq_refl (hsl (wr w s)) 0 (wm w) (V s) (BV s) (HW s)) as (ans&r'&E1&->&R). rewrite E1.
      exists N', (W (wm w) (wr w)). eexists. exists ans. split; [reflexivity|]. cbn [wm wr hsl]. split; [|split; [apply keeps_refl|split; [apply hval_own|exact R]]].
      destruct H as (A&B&C&G). split; auto. split; auto. split; auto. eapply inv_ext; [exact C|]. intros l. rsimp. rewrite hs_own. lia.
    + pose proof (open2 _ _ _ _ _ _ s t H L1 L2 E) as I.
      destruct (merge_new_ok b get_copy_of_container qlazy_op true true cok cok lne orb (get_copy_ok b) Hop or_l or_r (fun _ c X => cok_lne c X) (fun _ c X => cok_lne c X)
        (hsl (wr w s)) (hsl (wr w t)) 0 (wm w) (V s) (V t) _ (BV s) (BV t) I (HW s) (HW t)) as (m'&es1&es2&ans&r&Ee&J&K&V1&V2&V3&R). rewrite Ee.
      exists N', (W m' (put (put (wr w) s (HB b es1)) t (HB b es2))). eexists. exists r. split; [reflexivity|]. cbn [wm wr hsl]. split; [|split; [kk K|split; [exact V3|exact R]]].
      eapply wok_ext; [eapply (close2 N' b (wm w) (wr w) V T m' s t es1 es2 (V s) (V t)); [exact H|exact L1|exact L2|exact E| |kk K|exact V1|exact V2]|].
      * iv J.
      * intros i. unfold put. destruct (Nat.eqb_spec i t); [now subst|]. destruct (Nat.eqb_spec i s); [now subst|auto].
  - subst r1. destruct Q2 as [Vc Gc]. eapply paired_ext; [exact (into_tmp_ok N b cap w V T c s r2 BV H Vc Gc)|]. intros. apply orb_comm.
  - subst r2. destruct Q1 as [Va Ga]. exact (into_tmp_ok N b cap w V T a t r1 BV H Va Ga).
  - destruct Q1 as [Va Ga], Q2 as [Vc Gc]. pose proof H as (A&Fl&C&HW).
    assert (I : inv b (wm w) (hs (hsl a) ++ hs (hsl c) ++ allh (wr w) N ++ T)) by iv C.
    destruct (merge_both_ok b cap (hsl a) (hsl c) 0 (wm w) r1 r2 _ Ga Gc I Va Vc) as (m'&es&r&E&J&K&Ve&R). rewrite E.
    exists N, (W m' (wr w)). eexists. exists r. split; [reflexivity|]. cbn [wm wr hsl]. split; [|split; [kk K|split; [exact Ve|exact R]]].
    split; [exact A|]. split; [exact Fl|]. split; [iv J|]. intros i. destruct (Nat.lt_ge_cases i N) as [Li|Li].
    + etransitivity; [eapply hval_keeps; [exact K|]|apply HW]. intros l. pose proof (refs_allh_in l (wr w) i N Li). rr l.
    + specialize (HW i). rewrite A in HW |- * by auto. exact HW.
Qed.
Definition q_ok (m : smem) (V : nat -> bitmap) (l : list qelem) (U : Z -> Z -> bool) : Prop :=
  exists rs, Forall2 (qval m V) l rs /\ forall k x, 0 <= k < 65536 -> 0 <= x < 65536 -> existsb (fun r => km r k x) rs = U k x.
Lemma q_perm m V l l' U : Permutation l l' -> q_ok m V l U -> q_ok m V l' U.
Proof.
  intros P (rs&F&E). destruct (Permutation_Forall2 P F) as (rs'&P'&F'). exists rs'. split; [exact F'|]. intros k x Hk Hx. rewrite <- E by auto. symmetry. now apply existsb_perm.
Qed.
Lemma qval_keeps V m m' l rs : keeps (qhs l) m m' -> Forall2 (qval m V) l rs -> Forall2 (qval m' V) l rs.
Proof.
  intros K F. induction F as [|e r l rs Q F IH]; constructor.
  - destruct e as [s|x]; cbn [qval] in *; [exact Q|]. destruct Q as [Q G]. split; [|exact G]. etransitivity; [eapply hval_keeps; [exact K|]|exact Q].
    intros j. unfold qhs. cbn [flat_map thandles]. rr j.
  - apply IH. eapply keeps_incl; [exact K|]. intros j. unfold qhs. cbn [flat_map]. rr j.
Qed.
Lemma wok_perm N b m reg V T T' : wok N b m reg V T -> Permutation T T' -> wok N b m reg V T'.
Proof. intros (A&B&C&D) P. split; auto. split; auto. split; auto. eapply inv_ext; [exact C|]. intros l. rewrite !refs_app. now rewrite (refs_perm l _ _ P). Qed.
Lemma heap_rounds_ok b cap V (BV : forall i, bok (V i)) n : forall order N w x t U, wok N b (wm w) (wr w) V (qhs (x :: t)) -> q_ok (wm w) V (x :: t) U ->
  length t = n -> (n = O -> exists a, x = QTmp a) -> paired b V [] (wm w) U (heap_rounds cap n order x t w).
Proof.
  induction n as [|n IH]; intros order N w x t U H Q L T; cbn [heap_rounds].
  - destruct t; [|discriminate]. destruct (T eq_refl) as (a&->). destruct Q as (rs&F&E). inversion F as [|? r ? ? RG F']; subst. inversion F'; subst. destruct RG as [R G].
    unfold qhs in H. cbn [flat_map thandles] in H. exists N, w, a, r. split; [reflexivity|]. split; [exact H|]. split; [apply keeps_refl|]. split; [exact R|]. split; [exact G|].
    intros k y Hk Hy. rewrite <- E by lia. cbn [existsb]. now rewrite orb_false_r.
  - pose proof (poll_perm (fst (hd (O, O) order)) x t) as P1. destruct (poll (fst (hd (O, O) order)) x t) as [x1 l]. cbn [fst snd] in P1.
    pose proof (Permutation_length P1) as L1. cbn [length] in L1. destruct l as [|y u]; [cbn [length] in L1; lia|].
    pose proof (poll_perm (snd (hd (O, O) order)) y u) as P2. destruct (poll (snd (hd (O, O) order)) y u) as [x2 l']. cbn [fst snd] in P2.
    pose proof (Permutation_length P2) as L2. cbn [length] in L1, L2.
    assert (P : Permutation (x :: t) (x1 :: x2 :: l')) by (rewrite P1; now constructor).
    apply (q_perm _ _ _ _ _ P) in Q. apply (fun X => wok_perm _ _ _ _ _ _ _ X (qhs_perm _ _ P)) in H.
    destruct Q as (rs&F&E). inversion F as [|? r1 ? rs1 Q1 F1]; subst. inversion F1 as [|? r2 ? rs' Q2 F2]; subst.
    unfold qhs in H. cbn [flat_map] in H. fold (qhs l') in H.
    destruct (heap_pair_ok N b cap w V (qhs l') x1 x2 r1 r2 BV H Q1 Q2) as (N1&w1&z&r&E1&H1&K1&Vz&Gz&Mz). rewrite E1.
    destruct (IH (tl order) N1 w1 (QTmp z) l' U) as (N2&w2&z2&r2'&E2&H2&_&V2&R2).
    + unfold qhs. cbn [flat_map thandles]. exact H1.
    + exists (r :: rs'). split; [constructor; [split; auto|]; eapply qval_keeps; eauto|]. intros k j Hk Hj. rewrite <- E by auto. cbn [existsb]. rewrite Mz by lia. now rewrite orb_assoc.
    + lia.
    + intros _. now exists z.
    + exists N2, w2, z2, r2'. split; [exact E2|]. split; [exact H2|]. split; [intros j Hj; cbn in Hj; lia|]. split; [exact V2|exact R2].
Qed.
Lemma heap_result N b cap order V w s1 s2 t : (forall i, bok (V i)) -> wok N b (wm w) (wr w) V [] ->
  paired b V [] (wm w) (fun k x => existsb (fun s => km (V s) k x) (s1 :: s2 :: t)) (heap_rounds cap (length (s2 :: t)) order (QReg s1) (map QReg (s2 :: t)) w).
Proof.
  intros BV H. apply (heap_rounds_ok b cap V BV _ order N); [| |apply map_length|discriminate].
  - change (QReg s1 :: map QReg (s2 :: t)) with (map QReg (s1 :: s2 :: t)). assert (E : forall l, qhs (map QReg l) = []) by (induction l; auto). now rewrite E.
  - change (QReg s1 :: map QReg (s2 :: t)) with (map QReg (s1 :: s2 :: t)). generalize (s1 :: s2 :: t). intros l. exists (map V l). split.
    + induction l; constructor; auto. reflexivity.
    + intros k x _ _. induction l as [|s l IH]; auto. cbn [map existsb]. now rewrite IH.
Qed.
Theorem flag_or_heap_ok N b d cap order ss w V S : wok N b (wm w) (wr w) V [] -> refines V S ->
  goes b d V (fun v => existsb (fun s => S s v) ss) RNone (flag_or_heap b d cap order ss w).
Proof.
  intros H RV. assert (BV : forall i, bok (V i)) by (intros i; eapply den_bok, RV).
  unfold flag_or_heap. destruct ss as [|s [|t rest]]; cbn [or_many_heap].
  - cbn [hsl]. apply (fresh_ok N b w V d [] _ H). apply den_new.
  - pose proof H as (_&Fl&_&_). pose proof (new_reg_ok N b w V d s ra_append_copy_range (S s) (fun v => existsb (fun s => S s v) [s]) H (RV s)) as X.
    unfold new_reg in X. rewrite Fl in *. cbn zeta in X. destruct (ra_append_copy_range b (hsl (wr w s)) (wm w)) as [[m [es ans]]|].
    + cbn [hsl]. apply X. eapply new_ext; [apply copy_new|]. intros v _. cbn [existsb]. now rewrite orb_false_r.
    + apply X. eapply new_ext; [apply copy_new|]. intros v _. cbn [existsb]. now rewrite orb_false_r.
  - destruct (heap_result N b cap order V w s t rest BV H) as (N2&w2&x&ra2&E2&H2&_&U2&R2). rewrite E2. rewrite app_nil_r in H2.
    pose proof H2 as (_&_&I2&HW2). assert (I2' : inv b (wm w2) (hs (hsl x) ++ allh (wr w2) N2)) by iv I2.
    destruct (map_writable_ok b container_repair_after_lazy lne cok repair_lne (hsl x) 0 (wm w2) ra2 _ (proj1 R2) I2' U2) as (m3&E3&J3&K3&R3). rewrite E3. cbn [hsl].
    eapply free_put_ok; [|apply hval_own|].
    + cbn [wm wr]. instantiate (1 := N2). destruct H2 as (A&B&C&G). split; [exact A|]. split; [exact B|]. split; [eapply inv_ext; [exact J3|intros l; rsimp; rewrite hs_own; lia]|].
      intros i. destruct (Nat.lt_ge_cases i N2) as [Li|Li].
      * etransitivity; [eapply hval_keeps; [exact K3|]|apply G]. intros l. now apply refs_allh_in.
      * specialize (G i). rewrite A in G |- * by auto. exact G.
    + eapply den_of_rspec; [exact R3|]. intros v Hv. rewrite (proj2 R2) by (pose proof (val_hi v Hv); pose proof (Z.mod_pos_bound v 65536); lia).
      assert (EM : forall i, km (V i) (v / 65536) (v mod 65536) = S i v) by (intros i; apply (den_mem (V i) (S i) v (RV i) Hv)).
      generalize (s :: t :: rest). intros l. clear -EM. induction l as [|j l IH]; auto. cbn [existsb]. now rewrite EM, IH.
Qed.
Lemma qstep_ok N b c w V S : wok N b (wm w) (wr w) V [] -> refines V S -> cmd_ok (call_of c) S -> qmodelled c -> stepped b (call_of c) V S (qstep b c w).
Proof.
  intros H R K M. destruct c as [c o|d ss cap order]; cbn [call_of qstep qmodelled] in *; [now apply (hstep_ok N)|].
  eapply (goes_stepped b _ d V S); [apply (flag_or_heap_ok N); eauto|reflexivity|exact R|reflexivity|reflexivity].
Qed.
Lemma qexec_ok b : forall tr N w V S, wok N b (wm w) (wr w) V [] -> refines V S -> legal (map call_of tr) S -> Forall qmodelled tr ->
  exists N' w' V' outs, qexec b tr w = Some (w', outs) /\ wok N' b (wm w') (wr w') V' [] /\ refines V' (spec_run (map call_of tr) S) /\ agrees (map call_of tr) S outs.
Proof.
  induction tr as [|c tr IH]; intros N w V S H R L F; cbn [qexec map legal spec_run agrees] in *.
  - exists N, w, V, []. auto.
  - destruct L as [K L]. inversion F; subst. destruct (qstep_ok N b c w V S H R K H2) as (N1&w1&V1&a&E&H1&_&R1&O). rewrite E.
    destruct (IH N1 w1 V1 (spec_step (call_of c) S) H1 R1 L H3) as (N2&w2&V2&outs&E2&HW&R2&G). rewrite E2. exists N2, w2, V2, (a :: outs). auto.
Qed.
(** every program with unions by queue, in any polling order *)
Theorem cow_queue_history b tr : Forall qmodelled tr -> legal (map call_of tr) empty_regs ->
  exists w outs N, qexec b tr (hstart b) = Some (w, outs) /\ agrees (map call_of tr) empty_regs outs /\
    (forall i, exists r, contents w i = Some r /\ denotes r (spec_run (map call_of tr) empty_regs i)) /\ counters_exact w N.
Proof.
  intros F L. destruct (qexec_ok b tr 0 (hstart b) _ _ (hstart_wok b) hstart_refines L F) as (N&w&V&outs&E&H&R&G).
  exists w, outs, N. split; [exact E|]. split; [exact G|]. split; [|exact (wok_exact N b w V H)].
  intros i. exists (V i). split; [|apply R]. apply H.
Qed.
Definition qreaches (b : bool) (tr : list qcmd) (w : world) (S : regs) : Prop :=
  Forall qmodelled tr /\ legal (map call_of tr) empty_regs /\ S = spec_run (map call_of tr) empty_regs /\ exists outs, qexec b tr (hstart b) = Some (w, outs).
Theorem cow_queue_frame b tr w S d ss cap order : qreaches b tr w S ->
  exists w', flag_or_heap b d cap order ss w = Some (w', RNone) /\ forall i, i <> d -> contents w' i = contents w i.
Proof.
  intros (F&L&->&outs&E). destruct (qexec_ok b tr 0 (hstart b) _ _ (hstart_wok b) hstart_refines L F) as (N&w0&V&o'&E'&H&R&_). rewrite E in E'. injection E' as -> ->.
  destruct (flag_or_heap_ok N b d cap order ss w0 V _ H R) as (N1&w1&r&E1&H1&_). exists w1. split; [exact E1|]. intros i Hi. unfold contents.
  destruct H as (_&_&_&HW), H1 as (_&_&_&HW1). rewrite HW, HW1. now rewrite put_other.
Qed.
(** the flag of the answer is not the one of the operands: if two intermediate results
    were merged, it is off.  The containers of an operand go into it by or_inplace as
    shared ones; copying it is then impossible *)
Definition lost_flag : list cmd := [KOf 0 [1]; KOf 1 [65537]; KOf 2 [131073]; KOf 3 [196609]; KOf 4 [262145]].
Definition cap0 : Z -> Z := fun _ => 0.
Definition order0 : list (nat * nat) := [(0, 0); (1, 1); (0, 0)]%nat.
Definition ss0 : list nat := [0; 1; 2; 3]%nat.
(** the order in which the queue of Heap.v hands these four out: after two rounds there
    are two intermediate results *)
Lemma order0_real : let q := Heap.create_pq [[(0, CArr [1])]; [(1, CArr [1])]; [(2, CArr [1])]; [(3, CArr [1])]] in
  map Heap.e_tmp (Heap.heap_step cap0 (Heap.heap_step cap0 q)) = [true; true].
Proof. vm_compute. reflexivity. Qed.
Theorem or_many_heap_flag_refuted : exists l w w1 w2 w3, legal l empty_regs /\ (exists outs, hexec true (with_ora l) (hstart true) = Some (w, outs)) /\
  (forall i, hcow (wr w i) = true) /\ plain_or_heap 5 cap0 order0 ss0 w = Some (w1, RNone) /\ hcow (wr w1 5%nat) = false /\
  hstep true (KOrInplace 5 4) ora0 w1 = Some (w2, RNone) /\ option_map roaring_bitmap_to_uint32_array (contents w2 5) = Some [1; 65537; 131073; 196609; 262145] /\
  hstep true (KCopy 6 5) ora0 w2 = None /\
  flag_or_heap true 5 cap0 order0 ss0 w = Some w3 /\ exists w4 w5, hstep true (KOrInplace 5 4) ora0 (fst w3) = Some w4 /\ hstep true (KCopy 6 5) ora0 (fst w4) = Some w5.
Proof.
  exists lost_flag. eexists. eexists. eexists. eexists.
  split; [unfold lost_flag; lg|]. split; [eexists; vm_compute; reflexivity|]. split.
  { intros [|[|[|[|[|i]]]]]; reflexivity. }
  split; [vm_compute; reflexivity|]. split; [reflexivity|]. split; [vm_compute; reflexivity|]. split; [vm_compute; reflexivity|]. split; [vm_compute; reflexivity|].
  split; [vm_compute; reflexivity|]. eexists. eexists. split; [vm_compute; reflexivity|]. vm_compute. reflexivity.
Qed.

(** ** The flag *)
(** the calls that make a bitmap without another one to take the flag from *)
Definition from_nothing (c : cmd) : Prop :=
  match c with
  | KNew _ | KOf _ _ | KFromRange _ _ _ _ | KReloadPortable _ _ | KReloadNative _ _ => True
  | KOrMany _ ss | KXorMany _ ss => ss = []
  | _ => False
  end.
Definition flags (f : bool) (w : world) : Prop := forall i, hcow (wr w i) = f.
Lemma flags_put f m reg d es : (forall i, hcow (reg i) = f) -> flags f (W m (put reg d (HB f es))).
Proof. intros H i. cbn [wr]. unfold put. destruct (Nat.eqb i d); auto. Qed.
Lemma free_put_flags f d es w w' a : flags f w -> free_put d (HB f es) w = Some (w', a) -> flags f w'.
Proof. intros H E. unfold free_put in E. destruct (ra_clear_containers _ _) as [[m u]|]; [|discriminate]. injection E as <- _. now apply flags_put. Qed.
Lemma upd_reg_flags f d e q w w' a : flags f w -> upd_reg d e q w = Some (w', a) -> flags f w'.
Proof.
  intros H E. unfold upd_reg in E. destruct (load_all _ _) as [[m r]|]; [|discriminate]. destruct (e _ m) as [[m' es]|]; [|discriminate]. injection E as <- _. rewrite H. now apply flags_put.
Qed.
Lemma new_reg_flags f d s e w w' a : flags f w -> new_reg d s e w = Some (w', a) -> flags f w'.
Proof.
  intros H E. unfold new_reg in E. cbn zeta in E. rewrite !(H s) in E. destruct (e f _ _) as [[m [es ans]]|]; [|discriminate]. eapply free_put_flags; [|exact E]. now apply flags_put.
Qed.
Lemma new_reg2_flags f d s t e self w w' a : flags f w -> new_reg2 d s t e self w = Some (w', a) -> flags f w'.
Proof.
  intros H E. unfold new_reg2 in E. rewrite !H, orb_diag in E. cbn zeta in E. destruct (Nat.eqb s t).
  - destruct (self _ _) as [[m ans]|]; [|discriminate]. eapply free_put_flags; [|exact E]. exact H.
  - destruct (e f f _ _ _) as [[m [[es1 es2] ans]]|]; [|discriminate]. eapply free_put_flags; [|exact E]. apply flags_put. apply (flags_put f m (wr w) s es1 H).
Qed.
Lemma in_reg2_flags f d s ovw e w w' a : flags f w -> in_reg2 d s ovw e w = Some (w', a) -> flags f w'.
Proof.
  intros H E. unfold in_reg2 in E. rewrite (in_flag_same ovw f) in E by apply H. rewrite !H in E. destruct (e f _ _ _) as [[m [es1 es2]]|]; [|discriminate]. injection E as <- _.
  apply flags_put. apply (flags_put f m (wr w) d es1 H).
Qed.
Lemma many_loop_flags f act : forall ss ans w w' ans', flags f w -> many_loop act ss ans w = Some (w', ans') -> flags f w'.
Proof.
  induction ss as [|s ss IH]; intros ans w w' ans' H E; cbn [many_loop] in E; [injection E as <- _; exact H|]. rewrite !(H s) in E.
  destruct (merge_in _ _ _ _ _ _ _) as [[m [x es]]|]; [|discriminate]. eapply IH; [|exact E]. now apply flags_put.
Qed.
Lemma many_flags f d ss b op act w w' a : ss <> [] -> flags f w -> many d ss b op act w = Some (w', a) -> flags f w'.
Proof.
  intros Hs H E. destruct ss as [|s [|t rest]]; [contradiction| |]; cbn [many] in E; [eapply new_reg_flags; eauto|]. rewrite !H, orb_diag in E. cbn zeta in E.
  set (start := if Nat.eqb s t then _ else _) in E. assert (X : forall w1 ans, start = Some (w1, ans) -> flags f w1).
  { intros w1 ans X. unfold start in X. destruct (Nat.eqb s t).
    - destruct (merge_self _ _ _) as [[m r]|]; [|discriminate]. injection X as <- _. exact H.
    - destruct (merge_new _ _ _ _ _ _ _ _ _) as [[m [[es1 es2] r]]|]; [|discriminate]. injection X as <- _. apply flags_put. apply (flags_put f m (wr w) s es1 H). }
  clearbody start. destruct start as [[w1 ans]|]; [|discriminate]. specialize (X w1 ans eq_refl). destruct (many_loop _ _ _ _) as [[w2 ans2]|] eqn:E2; [|discriminate].
  pose proof (many_loop_flags f _ _ _ _ _ _ X E2) as Y. destruct (map_writable _ _ _) as [[m3 ans3]|]; [|discriminate]. eapply free_put_flags; [|exact E]. exact Y.
Qed.
(** whatever the caller does with the flag of bitmaps made from nothing ([b]) *)
Theorem hstep_flags f b c o w w' a : ~ from_nothing c -> flags f w -> hstep b c o w = Some (w', a) -> flags f w'.
Proof.
  intros HN H E. assert (QU : forall s q, query s q w = Some (w', a) -> flags f w').
  { intros s q X. unfold query in X. destruct (load_all _ _) as [[m r]|]; [|discriminate]. injection X as <- _. exact H. }
  assert (Q2 : forall s t q, query2 s t q w = Some (w', a) -> flags f w').
  { intros s t q X. unfold query2 in X. destruct (load_all _ _) as [[m r]|]; [|discriminate]. destruct (load_all _ _) as [[m2 r2]|]; [|discriminate]. injection X as <- _. exact H. }
  destruct c; cbn [from_nothing] in HN; try (now exfalso; apply HN); cbn [hstep] in E; eauto using upd_reg_flags, new_reg_flags, new_reg2_flags, in_reg2_flags, many_flags; try discriminate E.
  destruct (Nat.eqb d s); [injection E as <- _; exact H|eauto using in_reg2_flags].
Qed.
