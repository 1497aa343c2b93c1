(** Cow: copy on write.  A bitmap slot either owns its container or points to a
    shared_container_t (containers.h:59-63) whose reference counter says how many
    slots point to it.  The memory is the list of the shared_container_t blocks;
    reading or releasing a block that is not allocated, and cloning a shared
    container (container_clone answers NULL, containers.c:217-219), have no result.

    Simplifications.  A container that is not shared is embedded in its slot: it has
    exactly one owner, so updating it in place and replacing it by a fresh container
    are not told apart; allocation always succeeds; the counter (uint32_t) does not
    wrap; the searches for a key in a bitmap are those verified in RArray.v, here the
    slots are visited in order. *)
From Verif Require Import Base ArrayUtil BitUtil BitsetC ArrayC RunC RunD Convert MixedI MixedU MixedA MixedN Containers RArray RBinary RPoint RRange RQuery RStat RShift.
Local Opaque zr.

(** ** Code *)
(** [Own c]: a plain container.  [Sh l]: typecode SHARED_CONTAINER_TYPE and a pointer
    to block l.  [Bad l]: a pointer to block l under a plain typecode (only reached
    through roaring_bitmap_range_uint32_array, see below). *)
Inductive handle : Type := Own (c : container) | Sh (l : nat) | Bad (l : nat).
(** a shared_container_t: its counter and the container it holds; None: not allocated *)
Definition cell := option (Z * container).
Definition smem := list cell.
Definition cellat (m : smem) (l : nat) : cell := nth l m None.
Notation slot := (Z * handle)%type.
Notation hmap := (list slot).
(** a roaring_bitmap_t: the flag ROARING_FLAG_COW (roaring.h:85-95) and the slots *)
Record hbm := HB { hcow : bool; hsl : hmap }.

Definition M (A : Type) := smem -> option (smem * A).
Definition ret {A} (a : A) : M A := fun m => Some (m, a).
Definition bind {A B} (e : M A) (f : A -> M B) : M B :=
  fun m => match e m with Some (m', a) => f a m' | None => None end.
Notation "x <- e ;; f" := (bind e (fun x => f)) (at level 61, e at next level, right associativity).
Notation "' p <- e ;; f" := (bind e (fun p => f)) (at level 61, p pattern, e at next level, right associativity).

(** containers.h:93-102 container_unwrap_shared *)
Definition unwrap (m : smem) (h : handle) : option container :=
  match h with Own c => Some c | Sh l => option_map snd (cellat m l) | Bad _ => None end.
Definition load (h : handle) : M container :=
  fun m => match unwrap m h with Some c => Some (m, c) | None => None end.
(** containers.c:169-200 get_copy_of_container: the slot the copy was taken from
    (the callers store the answer back into it) and the copy *)
Definition get_copy_of_container (cow : bool) (h : handle) : M (handle * handle) :=
  fun m =>
  if cow then
    match h with
    | Sh l => match cellat m l with Some (n, c) => Some (upd l (Some (n + 1, c)) m, (Sh l, Sh l)) | None => None end
    | Own c => Some (m ++ [Some (2, c)], (Sh (length m), Sh (length m)))
    | Bad _ => None
    end
  else match unwrap m h with Some c => Some (m, (h, Own c)) | None => None end.
(** containers.c:206-225 container_clone *)
Definition container_clone (h : handle) : M handle :=
  match h with Own c => ret (Own c) | _ => fun _ => None end.
(** roaring_array.c:223-242 ra_append_copy; one step of ra_append_copies_until (244-250),
    ra_append_copy_range (252-271), ra_append_copies_after (273-281) and ra_overwrite
    (126-167) *)
Definition ra_append_copy (cow : bool) (h : handle) : M (handle * handle) :=
  if cow then get_copy_of_container true h else (c <- container_clone h ;; ret (h, c)).
(** croaring_refcount_dec (portability.h:489-501): decrement, did it reach zero? *)
Definition refcount_dec (l : nat) : M (bool * container) :=
  fun m => match cellat m l with
           | Some (n, c) => if n =? 1 then Some (upd l None m, (true, c)) else Some (upd l (Some (n - 1, c)) m, (false, c))
           | None => None
           end.
(** containers.c:227-241 shared_container_extract_copy: the last owner takes the
    container and frees the block, otherwise the container is cloned *)
Definition shared_container_extract_copy (l : nat) : M container :=
  '(last, c) <- refcount_dec l ;; ret (if last then c else c).
(** containers.h:133-140 get_writable_copy_if_shared;
    roaring_array.h:256-261 ra_unshare_container_at_index *)
Definition get_writable_copy_if_shared (h : handle) : M container :=
  match h with Own c => ret c | Sh l => shared_container_extract_copy l | Bad _ => fun _ => None end.
(** containers.c:243-250 shared_container_free; containers.c:47-65 container_free *)
Definition container_free (h : handle) : M unit :=
  match h with Own _ => ret tt | Sh l => '(_, _) <- refcount_dec l ;; ret tt | Bad _ => fun _ => None end.
(** roaring_array.c:169-173 ra_clear_containers *)
Fixpoint ra_clear_containers (es : hmap) : M unit :=
  match es with [] => ret tt | (_, h) :: t => _ <- container_free h ;; ra_clear_containers t end.
(** roaring_array.c:252-271 ra_append_copy_range over the whole list; also the copying
    part of ra_overwrite (126-167): the source afterwards and the copies *)
Fixpoint ra_append_copy_range (cow : bool) (es : hmap) : M (hmap * hmap) :=
  match es with
  | [] => ret ([], [])
  | (k, h) :: t =>
    '(h1, h2) <- ra_append_copy cow h ;;
    '(t1, t2) <- ra_append_copy_range cow t ;;
    ret ((k, h1) :: t1, (k, h2) :: t2)
  end.
Definition hemit (k : Z) (o : option handle) (t : hmap) : hmap :=
  match o with Some h => (k, h) :: t | None => t end.

(** *** Results in a new bitmap.
    roaring_bitmap_and (roaring.c:698-737), _or (844-920), _xor (995-1070), _andnot
    (1161-1224), _lazy_or (2233-2322), _lazy_xor (2408-2485): one loop over the two key
    arrays.  [op]: the new container for a common key (None: empty, dropped).
    [cl]/[cr]: are containers with a key of only one operand copied.  [inl]: the copy
    made inside the loop (get_copy_of_container, but ra_append_copy_range in andnot);
    the rest after the loop and the other operand of an empty one are copied by
    ra_append_copy_range or roaring_bitmap_copy.  Copies are made with the flag of the
    operand they come from.  Result: both operands afterwards (copying a container
    turns the slot of the operand into a shared one) and the answer. *)
Fixpoint merge_new (inl : bool -> handle -> M (handle * handle)) (op : Z -> container -> container -> option container)
    (cl cr cow1 cow2 : bool) (es1 : hmap) {struct es1} : hmap -> M (hmap * hmap * hmap) :=
  fix go (es2 : hmap) {struct es2} : M (hmap * hmap * hmap) :=
  match es1, es2 with
  | [], _ => if cr then '(b, ans) <- ra_append_copy_range cow2 es2 ;; ret ([], b, ans) else ret ([], es2, [])
  | _, [] => if cl then '(a, ans) <- ra_append_copy_range cow1 es1 ;; ret (a, [], ans) else ret (es1, [], [])
  | (k1, h1) :: t1, (k2, h2) :: t2 =>
    if k1 =? k2 then
      c1 <- load h1 ;; c2 <- load h2 ;;
      '(a, b, ans) <- merge_new inl op cl cr cow1 cow2 t1 t2 ;;
      ret ((k1, h1) :: a, (k2, h2) :: b, hemit k1 (option_map Own (op k1 c1 c2)) ans)
    else if k1 <? k2 then
      if cl then
        '(s, d) <- inl cow1 h1 ;; '(a, b, ans) <- merge_new inl op cl cr cow1 cow2 t1 es2 ;;
        ret ((k1, s) :: a, b, (k1, d) :: ans)
      else '(a, b, ans) <- merge_new inl op cl cr cow1 cow2 t1 es2 ;; ret ((k1, h1) :: a, b, ans)
    else
      if cr then
        '(s, d) <- inl cow2 h2 ;; '(a, b, ans) <- go t2 ;; ret (a, (k2, s) :: b, (k2, d) :: ans)
      else '(a, b, ans) <- go t2 ;; ret (a, (k2, h2) :: b, ans)
  end.
(** the same loop when both operands are the same bitmap: all keys are common *)
Fixpoint merge_self (op : Z -> container -> container -> option container) (es : hmap) : M hmap :=
  match es with
  | [] => ret []
  | (k, h) :: t => c <- load h ;; ans <- merge_self op t ;; ret (hemit k (option_map Own (op k c c)) ans)
  end.

(** *** Results in the first operand.
    roaring_bitmap_and_inplace (roaring.c:779-842), _or_inplace (923-993), _xor_inplace
    (1074-1159), _andnot_inplace (1228-1320), _lazy_or_inplace (2324-2406),
    _lazy_xor_inplace (2487-2567).  [act]: what happens to the container of x1 under a
    common key.  [keepl]: containers with a key of x1 only stay (otherwise they are
    freed).  [cr]: containers with a key of x2 only are copied into x1. *)
Fixpoint merge_in (act : Z -> handle -> handle -> M (option handle)) (keepl cr cow2 : bool) (es1 : hmap) {struct es1}
    : hmap -> M (hmap * hmap) :=
  fix go (es2 : hmap) {struct es2} : M (hmap * hmap) :=
  match es1, es2 with
  | [], _ => if cr then '(b, a) <- ra_append_copy_range cow2 es2 ;; ret (a, b) else ret ([], es2)
  | _, [] => if keepl then ret (es1, []) else (_ <- ra_clear_containers es1 ;; ret ([], []))
  | (k1, h1) :: t1, (k2, h2) :: t2 =>
    if k1 =? k2 then
      o <- act k1 h1 h2 ;;
      '(a, b) <- merge_in act keepl cr cow2 t1 t2 ;;
      ret (hemit k1 o a, (k2, h2) :: b)
    else if k1 <? k2 then
      if keepl then '(a, b) <- merge_in act keepl cr cow2 t1 es2 ;; ret ((k1, h1) :: a, b)
      else (_ <- container_free h1 ;; merge_in act keepl cr cow2 t1 es2)
    else
      if cr then '(s, d) <- get_copy_of_container cow2 h2 ;; '(a, b) <- go t2 ;; ret ((k2, d) :: a, (k2, s) :: b)
      else '(a, b) <- go t2 ;; ret (a, (k2, h2) :: b)
  end.
(** The treatment of two containers with the same key.  A shared container of x1 is
    combined by the out-of-place operation and then released; the answer is dropped
    if it is empty.  An owned one is combined in place.  [op sh k c1 c2]: the result,
    with the out-of-place ([sh] = true) or the in-place operation. *)
Definition act_op (op : bool -> Z -> container -> container -> option container) (k : Z) (h1 h2 : handle) : M (option handle) :=
  c1 <- load h1 ;; c2 <- load h2 ;;
  match h1 with
  | Own _ => ret (option_map Own (op false k c1 c2))
  | _ => _ <- container_free h1 ;; ret (option_map Own (op true k c1 c2))
  end.
(** or_inplace and lazy_or_inplace first test whether the container of x1 is full and
    then leave it alone (roaring.c:941-943, 2343-2345).  lazy_or_inplace makes a
    writable copy of it otherwise. *)
Definition act_or (op : bool -> Z -> container -> container -> option container) (k : Z) (h1 h2 : handle) : M (option handle) :=
  c1 <- load h1 ;;
  if container_is_full c1 then ret (Some h1) else act_op op k h1 h2.
Definition act_lazy_or (op : Z -> container -> container -> option container) (k : Z) (h1 h2 : handle) : M (option handle) :=
  c1 <- load h1 ;;
  if container_is_full c1 then ret (Some h1)
  else c1 <- get_writable_copy_if_shared h1 ;; c2 <- load h2 ;; ret (option_map Own (op k c1 c2)).

(** *** Updates of one bitmap.
    The slot with key k is unshared and its container goes through [f] (None: empty,
    the slot is removed); if there is no such slot, [absent] is inserted.
    roaring_bitmap_add (roaring.c:533-559), _add_checked (561-599), _remove (601-624),
    _remove_checked (626-661), containerptr_roaring_bitmap_add (51-82), one key of
    add_range_closed (249-298), of remove_range_closed (300-337) and of
    flip_inplace_closed (1937-2011; container_inot and container_inot_range,
    containers.h:2058-2121, make the writable copy). *)
Fixpoint update_slot (k : Z) (f : container -> option container) (absent : option container) (es : hmap) : M hmap :=
  match es with
  | [] => ret (hemit k (option_map Own absent) [])
  | (k', h) :: t =>
    if k =? k' then c <- get_writable_copy_if_shared h ;; ret (hemit k (option_map Own (f c)) t)
    else if k <? k' then ret (hemit k (option_map Own absent) es)
    else t' <- update_slot k f absent t ;; ret ((k', h) :: t')
  end.
Fixpoint update_keys (ks : list Z) (f : Z -> container -> option container) (absent : Z -> option container) (es : hmap) : M hmap :=
  match ks with [] => ret es | k :: ks' => es' <- update_slot k (f k) (absent k) es ;; update_keys ks' f absent es' end.
(** the slot with key k: read only *)
Fixpoint look_slot (k : Z) (es : hmap) : option handle :=
  match es with [] => None | (k', h) :: t => if k =? k' then Some h else look_slot k t end.
(** every container is made writable and goes through [f]: roaring_bitmap_run_optimize
    (roaring.c:1410-1426) and roaring_bitmap_repair_after_lazy (2569-2580) *)
Fixpoint map_writable (f : container -> container) (es : hmap) : M hmap :=
  match es with
  | [] => ret []
  | (k, h) :: t => c <- get_writable_copy_if_shared h ;; t' <- map_writable f t ;; ret ((k, Own (f c)) :: t')
  end.
(** roaring.c:1444-1472 roaring_bitmap_remove_run_compression: a run container is
    converted and then freed, or released if it is shared; others are left alone *)
Fixpoint map_runs (f : container -> container) (es : hmap) : M hmap :=
  match es with
  | [] => ret []
  | (k, h) :: t =>
    c <- load h ;;
    match c with
    | CRun _ => _ <- container_free h ;; t' <- map_runs f t ;; ret ((k, Own (f c)) :: t')
    | _ => t' <- map_runs f t ;; ret ((k, h) :: t')
    end
  end.
(** the containers of all slots *)
Fixpoint load_all (es : hmap) : M bitmap :=
  match es with [] => ret [] | (k, h) :: t => c <- load h ;; r <- load_all t ;; ret ((k, c) :: r) end.
Definition own_all (r : bitmap) : hmap := map (fun p => (fst p, Own (snd p))) r.

(** ** Abstract view *)
Definition ref1 (l : nat) (h : handle) : Z := match h with Sh l' => if Nat.eqb l l' then 1 else 0 | _ => 0 end.
Fixpoint refs (l : nat) (hs : list handle) : Z := match hs with [] => 0 | h :: t => ref1 l h + refs l t end.
Definition hs (es : hmap) : list handle := map snd es.
(** The handles [H] are all there are: every counter is the number of handles on the
    block, a block is allocated exactly if there is one; without copy on write there
    are no blocks. *)
Definition inv (cow : bool) (m : smem) (H : list handle) : Prop :=
  (cow = false -> forall l, cellat m l = None) /\
  forall l, match cellat m l with Some (n, _) => n = refs l H /\ 0 < n | None => refs l H = 0 end.
Definition keeps (F : list handle) (m m' : smem) : Prop :=
  forall l, 0 < refs l F -> option_map snd (cellat m' l) = option_map snd (cellat m l).
Fixpoint hval (m : smem) (es : hmap) : option bitmap :=
  match es with
  | [] => Some []
  | (k, h) :: t => match unwrap m h, hval m t with Some c, Some r => Some ((k, c) :: r) | _, _ => None end
  end.

(** ** Proofs *)
Lemma ref1_nonneg l h : 0 <= ref1 l h. Proof. destruct h; cbn; try lia. destruct (Nat.eqb l l0); lia. Qed.
Lemma refs_nonneg l H : 0 <= refs l H.
Proof. induction H as [|h t IH]; cbn; [lia|]. pose proof (ref1_nonneg l h). lia. Qed.
Lemma refs_app l a b : refs l (a ++ b) = refs l a + refs l b.
Proof. induction a; cbn; lia. Qed.
Lemma refs_cons l h t : refs l (h :: t) = ref1 l h + refs l t. Proof. reflexivity. Qed.
Lemma refs_nil l : refs l [] = 0. Proof. reflexivity. Qed.
Lemma ref1_own l c : ref1 l (Own c) = 0. Proof. reflexivity. Qed.
Lemma hs_app a b : hs (a ++ b) = hs a ++ hs b. Proof. apply map_app. Qed.
Lemma hs_cons k h t : hs ((k, h) :: t) = h :: hs t. Proof. reflexivity. Qed.
Lemma hs_nil : hs [] = []. Proof. reflexivity. Qed.
Ltac rsimp := rewrite ?hs_app, ?hs_cons, ?hs_nil, ?refs_app, ?refs_cons, ?refs_nil, ?ref1_own, ?refs_app, ?refs_cons, ?refs_nil, ?ref1_own in *.
Ltac rr l :=
  rsimp;
  repeat match goal with
  | |- context [refs l ?x] => lazymatch goal with H : 0 <= refs l x |- _ => fail | _ => pose proof (refs_nonneg l x) end
  | |- context [ref1 l ?x] => lazymatch goal with H : 0 <= ref1 l x |- _ => fail | _ => pose proof (ref1_nonneg l x) end
  | _ : context [refs l ?x] |- _ => lazymatch goal with H : 0 <= refs l x |- _ => fail | _ => pose proof (refs_nonneg l x) end
  | _ : context [ref1 l ?x] |- _ => lazymatch goal with H : 0 <= ref1 l x |- _ => fail | _ => pose proof (ref1_nonneg l x) end
  end; try lia.
Lemma inv_ext cow m H H' : inv cow m H -> (forall l, refs l H' = refs l H) -> inv cow m H'.
Proof. intros (A&B) E. split; auto. intros l. specialize (B l). rewrite E. exact B. Qed.
Lemma keeps_refl F m : keeps F m m. Proof. intros l _. reflexivity. Qed.
Lemma keeps_trans F F' m1 m2 m3 : keeps F m1 m2 -> keeps F' m2 m3 -> (forall l, refs l F <= refs l F') -> keeps F m1 m3.
Proof. intros A B E l Hl. rewrite B by (specialize (E l); lia). now apply A. Qed.
Lemma keeps_incl F F' m m' : keeps F m m' -> (forall l, refs l F' <= refs l F) -> keeps F' m m'.
Proof. intros A E l Hl. apply A. specialize (E l). lia. Qed.
Lemma unwrap_keeps F m m' h : keeps F m m' -> (forall l, ref1 l h <= refs l F) -> unwrap m' h = unwrap m h.
Proof. intros K E. destruct h as [c|l|l]; auto. cbn [unwrap]. apply K. specialize (E l). cbn [ref1] in E. rewrite Nat.eqb_refl in E. lia. Qed.
Lemma hval_keeps F m m' es : keeps F m m' -> (forall l, refs l (hs es) <= refs l F) -> hval m' es = hval m es.
Proof.
  intros K. induction es as [|[k h] t IH]; intros E; auto. cbn [hval].
  rewrite (unwrap_keeps F m m' h K), IH; auto; intros l; specialize (E l); rr l.
Qed.
Lemma cellat_upd m l c j : cellat m l <> None -> cellat (upd l c m) j = if Nat.eqb l j then c else cellat m j.
Proof.
  unfold cellat. revert l j. induction m as [|x m IH]; intros l j H.
  - destruct l; cbn in H; congruence.
  - destruct l as [|l], j as [|j]; cbn in *; auto.
Qed.
Lemma cellat_snoc m c j : cellat (m ++ [c]) j = if Nat.eqb (length m) j then c else cellat m j.
Proof.
  unfold cellat. destruct (Nat.eqb_spec (length m) j) as [<-|N].
  - rewrite app_nth2, Nat.sub_diag; auto.
  - destruct (Nat.lt_ge_cases j (length m)); [now rewrite app_nth1|]. rewrite !nth_overflow; auto; rewrite ?app_length; cbn; lia.
Qed.
Lemma cellat_end m : cellat m (length m) = None. Proof. unfold cellat. now rewrite nth_overflow. Qed.
Lemma inv_live cow m H l c : inv cow m H -> option_map snd (cellat m l) = Some c -> exists n, cellat m l = Some (n, c) /\ n = refs l H /\ 0 < n /\ cow = true.
Proof.
  intros (A&B) E. specialize (B l). destruct (cellat m l) as [[n c']|] eqn:Ec; [|discriminate]. injection E as ->. exists n. intuition.
  destruct cow; auto. rewrite A in Ec by auto. discriminate.
Qed.

(** copies *)
Definition copy_ok (cow : bool) (cp : handle -> M (handle * handle)) : Prop :=
  forall m h c F, inv cow m (h :: F) -> unwrap m h = Some c ->
  exists m' a b, cp h m = Some (m', (a, b)) /\ inv cow m' (a :: b :: F) /\ keeps F m m' /\ unwrap m' a = Some c /\ unwrap m' b = Some c.
Lemma get_copy_ok cow : copy_ok cow (get_copy_of_container cow).
Proof.
  intros m h c F I U. unfold get_copy_of_container. destruct cow.
  - destruct h as [c0|l|l]; [| |discriminate].
    + injection U as ->. eexists _, _, _. split; [reflexivity|].
      assert (Z0 : refs (length m) F = 0). { pose proof (proj2 I (length m)) as B. rewrite cellat_end in B. rr (length m). }
      split; [|split; [|split; cbn [unwrap]; rewrite cellat_snoc, Nat.eqb_refl; reflexivity]].
      * split; [discriminate|]. intros l. rewrite cellat_snoc. cbn [refs ref1]. destruct (Nat.eqb_spec (length m) l) as [<-|N].
        -- rewrite Nat.eqb_refl. lia.
        -- replace (Nat.eqb l (length m)) with false by (symmetry; apply Nat.eqb_neq; auto). pose proof (proj2 I l) as B. cbn [refs ref1] in B. exact B.
      * intros l Hl. rewrite cellat_snoc. destruct (Nat.eqb_spec (length m) l) as [<-|N]; auto. lia.
    + destruct (inv_live _ _ _ _ _ I U) as (n&E&En&Pn&_). rewrite E. eexists _, _, _. split; [reflexivity|].
      assert (NN : cellat m l <> None) by congruence.
      split; [|split; [|split; cbn [unwrap]; rewrite cellat_upd, Nat.eqb_refl by auto; reflexivity]].
      * split; [discriminate|]. intros j. rewrite cellat_upd by auto. pose proof (proj2 I j) as B. cbn [refs ref1] in B, En |- *. rewrite (Nat.eqb_sym l j). destruct (Nat.eqb_spec j l) as [Ej|N]; [subst j|].
        -- rewrite E in B. rewrite Nat.eqb_refl in En. lia.
        -- exact B.
      * intros j Hj. rewrite cellat_upd by auto. destruct (Nat.eqb_spec l j) as [<-|N]; auto; now rewrite E.
  - rewrite U. eexists _, _, _. split; [reflexivity|]. split; [|split; [apply keeps_refl|auto]].
    eapply inv_ext; [eassumption|intros l; rr l].
Qed.
Lemma append_copy_ok cow : copy_ok cow (ra_append_copy cow).
Proof.
  intros m h c F I U. unfold ra_append_copy. destruct cow; [now apply get_copy_ok|].
  destruct h as [c0|l|l]; [|destruct (inv_live _ _ _ _ _ I U) as (?&?&?&?&?); discriminate|discriminate].
  injection U as ->. cbn. eexists _, _, _. split; [reflexivity|]. split; [|split; [apply keeps_refl|auto]].
  eapply inv_ext; [eassumption|intros l0; rr l0].
Qed.
Lemma refcount_dec_spec cow m l c F : inv cow m (Sh l :: F) -> unwrap m (Sh l) = Some c ->
  exists m' b, refcount_dec l m = Some (m', (b, c)) /\ inv cow m' F /\ keeps F m m'.
Proof.
  intros I U. destruct (inv_live _ _ _ _ _ I U) as (n&E&En&Pn&Hc). subst cow. unfold refcount_dec. rewrite E.
  assert (NN : cellat m l <> None) by congruence. cbn [refs ref1] in En. rewrite Nat.eqb_refl in En.
  destruct (Z.eqb_spec n 1); (eexists _, _; split; [reflexivity|]); split.
  - split; [discriminate|]. intros j. rewrite cellat_upd by auto. pose proof (proj2 I j) as B. cbn [refs ref1] in B. rewrite (Nat.eqb_sym l j). destruct (Nat.eqb_spec j l) as [Ej|N]; [subst j; lia|exact B].
  - intros j Hj. rewrite cellat_upd by auto. destruct (Nat.eqb_spec l j) as [<-|N]; auto; lia.
  - pose proof (refs_nonneg l F). split; [discriminate|]. intros j. rewrite cellat_upd by auto. pose proof (proj2 I j) as B. cbn [refs ref1] in B. rewrite (Nat.eqb_sym l j). destruct (Nat.eqb_spec j l) as [Ej|N]; [subst j; lia|exact B].
  - intros j Hj. rewrite cellat_upd by auto. destruct (Nat.eqb_spec l j) as [<-|N]; auto; now rewrite E.
Qed.
Lemma writable_ok cow m h c F : inv cow m (h :: F) -> unwrap m h = Some c ->
  exists m', get_writable_copy_if_shared h m = Some (m', c) /\ inv cow m' F /\ keeps F m m'.
Proof.
  intros I U. destruct h as [c0|l|l]; [| |discriminate].
  - injection U as ->. exists m. split; [reflexivity|]. split; [|apply keeps_refl]. eapply inv_ext; [eassumption|intros l0; rr l0].
  - destruct (refcount_dec_spec _ _ _ _ _ I U) as (m'&b&E&I'&K). exists m'. cbn [get_writable_copy_if_shared]. unfold shared_container_extract_copy, bind. rewrite E.
    split; auto. destruct b; reflexivity.
Qed.
Lemma free_ok cow m h c F : inv cow m (h :: F) -> unwrap m h = Some c ->
  exists m', container_free h m = Some (m', tt) /\ inv cow m' F /\ keeps F m m'.
Proof.
  intros I U. destruct h as [c0|l|l]; [| |discriminate].
  - exists m. split; [reflexivity|]. split; [|apply keeps_refl]. eapply inv_ext; [eassumption|intros l0; rr l0].
  - destruct (refcount_dec_spec _ _ _ _ _ I U) as (m'&b&E&I'&K). exists m'. cbn [container_free]. unfold bind. rewrite E. auto.
Qed.
Lemma load_ok m h c : unwrap m h = Some c -> load h m = Some (m, c).
Proof. intros E. unfold load. now rewrite E. Qed.
Lemma hval_cons m k h t r : hval m ((k, h) :: t) = Some r -> exists c r', r = (k, c) :: r' /\ unwrap m h = Some c /\ hval m t = Some r'.
Proof. cbn [hval]. destruct (unwrap m h) as [c|]; [|discriminate]. destruct (hval m t) as [r'|]; [|discriminate]. intros E. injection E as <-. eauto. Qed.
Lemma hval_cons_eq m k h t c r : unwrap m h = Some c -> hval m t = Some r -> hval m ((k, h) :: t) = Some ((k, c) :: r).
Proof. intros A B. cbn [hval]. now rewrite A, B. Qed.
Lemma hval_own m r : hval m (own_all r) = Some r.
Proof. induction r as [|[k c] t IH]; auto. cbn. unfold own_all in IH. now rewrite IH. Qed.
Lemma hs_own l r : refs l (hs (own_all r)) = 0.
Proof. induction r as [|[k c] t IH]; auto. Qed.

Lemma clear_ok cow es : forall m r F, inv cow m (hs es ++ F) -> hval m es = Some r ->
  exists m', ra_clear_containers es m = Some (m', tt) /\ inv cow m' F /\ keeps F m m'.
Proof.
  induction es as [|[k h] t IH]; intros m r F I V.
  - exists m. split; [reflexivity|]. split; [exact I|apply keeps_refl].
  - apply hval_cons in V as (c&r'&->&U&V). destruct (free_ok cow m h c (hs t ++ F) I U) as (m1&E1&I1&K1).
    assert (V' : hval m1 t = Some r') by (rewrite <- V; eapply hval_keeps; [eassumption|intros l; rr l]).
    destruct (IH m1 r' F I1 V') as (m2&E2&I2&K2).
    exists m2. split; [cbn; unfold bind; now rewrite E1|]. split; auto.
    eapply keeps_trans; [eapply keeps_incl; [exact K1|intros l; rr l]|exact K2|intros l; lia].
Qed.
Lemma copy_range_ok cow es : forall m r F, inv cow m (hs es ++ F) -> hval m es = Some r ->
  exists m' a b, ra_append_copy_range cow es m = Some (m', (a, b)) /\ inv cow m' (hs a ++ hs b ++ F) /\ keeps F m m' /\ hval m' a = Some r /\ hval m' b = Some r.
Proof.
  induction es as [|[k h] t IH]; intros m r F I V.
  - exists m, [], []. injection V as <-. split; [reflexivity|]. split; [exact I|]. split; [apply keeps_refl|auto].
  - apply hval_cons in V as (c&r'&->&U&V). destruct (append_copy_ok cow m h c (hs t ++ F) I U) as (m1&h1&h2&E1&I1&K1&U1&U2).
    assert (V' : hval m1 t = Some r') by (rewrite <- V; eapply hval_keeps; [eassumption|intros l; rr l]).
    assert (I' : inv cow m1 (hs t ++ h1 :: h2 :: F)) by (eapply inv_ext; [eassumption|intros l; rr l]).
    destruct (IH m1 r' (h1 :: h2 :: F) I' V') as (m2&a&b&E2&I2&K2&V1&V2).
    exists m2, ((k, h1) :: a), ((k, h2) :: b). split; [cbn; unfold bind; rewrite E1; cbn; now rewrite E2|].
    split; [eapply inv_ext; [eassumption|intros l; rr l]|]. split; [|split; apply hval_cons_eq; auto].
    + eapply keeps_trans; [eapply keeps_incl; [exact K1|]|exact K2|]; intros l; rr l.
    + rewrite <- U1. eapply unwrap_keeps; eauto. intros l. rr l.
    + rewrite <- U2. eapply unwrap_keeps; eauto. intros l. rr l.
Qed.
Ltac iv I := eapply inv_ext; [exact I|intros ?l; match goal with l : nat |- _ => rr l end].
Ltac hk K V := etransitivity; [eapply hval_keeps; [exact K|intros ?l; match goal with l : nat |- _ => rr l end]|exact V].
Ltac uk K V := etransitivity; [eapply unwrap_keeps; [exact K|intros ?l; match goal with l : nat |- _ => rr l end]|exact V].
Ltac kk K := eapply keeps_incl; [exact K|intros ?l; match goal with l : nat |- _ => rr l end].
Ltac kt K1 K2 := eapply keeps_trans; [kk K1|exact K2|intros ?l; match goal with l : nat |- _ => rr l end].

(** one step of a merge, on the values *)
Lemma f_none (f : bool -> bool -> bool) (cl : bool) (Hl : forall b, f b false = cl && b) : f false false = false. Proof. rewrite Hl. apply andb_false_r. Qed.
Lemma bm_nil_l (C2 C : container -> Prop) (f : bool -> bool -> bool) (cr : bool) (Hr : forall b, f false b = cr && b) (S2 : cr = true -> forall c, C2 c -> C c) lo r2 : gok C2 lo r2 -> bmrep C lo (if cr then r2 else []) (fun k x => f (km [] k x) (km r2 k x)).
Proof.
  intros G. destruct cr.
  - eapply bmrep_ext; [apply bmrep_self; eapply gok_impl; [now apply S2|apply G]|]. intros. cbn beta. rewrite km_nil, Hr. reflexivity.
  - apply bmrep_nil. intros. rewrite km_nil, Hr. reflexivity.
Qed.
Lemma bm_nil_r (C1 C : container -> Prop) (f : bool -> bool -> bool) (cl : bool) (Hl : forall b, f b false = cl && b) (S1 : cl = true -> forall c, C1 c -> C c) lo r1 : gok C1 lo r1 -> bmrep C lo (if cl then r1 else []) (fun k x => f (km r1 k x) (km [] k x)).
Proof.
  intros G. destruct cl.
  - eapply bmrep_ext; [apply bmrep_self; eapply gok_impl; [now apply S1|apply G]|]. intros. cbn beta. rewrite km_nil, Hl. reflexivity.
  - apply bmrep_nil. intros. rewrite km_nil, Hl. reflexivity.
Qed.
Lemma bm_eq (C1 C2 C : container -> Prop) (f : bool -> bool -> bool) (cl : bool) (Hl : forall b, f b false = cl && b) lo k c1 c2 r1 r2 o r : gok C1 lo ((k, c1) :: r1) -> gok C2 lo ((k, c2) :: r2) ->
  match o with Some c => C c /\ forall x, 0 <= x < 65536 -> cmem c x = f (cmem c1 x) (cmem c2 x)
             | None => forall x, 0 <= x < 65536 -> f (cmem c1 x) (cmem c2 x) = false end ->
  bmrep C (k + 1) r (fun j x => f (km r1 j x) (km r2 j x)) ->
  bmrep C lo (emit k o r) (fun j x => f (km ((k, c1) :: r1) j x) (km ((k, c2) :: r2) j x)).
Proof.
  intros G1 G2 Ho R. apply gok_cons in G1 as (K1&D1&T1). apply gok_cons in G2 as (K2&D2&T2). apply bmrep_emit; auto.
  - destruct o; [destruct Ho; split; auto|]; intros; rewrite !km_head; auto.
  - intros j x Hj Hx. rewrite !km_tail by lia. kmb T1. kmb T2. apply (f_none f cl Hl).
  - eapply bmrep_ext; [exact R|]. intros. cbn beta. now rewrite !km_tail by lia.
Qed.
Lemma bm_left (C1 C2 C : container -> Prop) (f : bool -> bool -> bool) (cl : bool) (Hl : forall b, f b false = cl && b) (S1 : cl = true -> forall c, C1 c -> C c) lo k c1 r1 r2 r : gok C1 lo ((k, c1) :: r1) -> gok C2 (k + 1) r2 ->
  bmrep C (k + 1) r (fun j x => f (km r1 j x) (km r2 j x)) ->
  bmrep C lo (if cl then (k, c1) :: r else r) (fun j x => f (km ((k, c1) :: r1) j x) (km r2 j x)).
Proof.
  intros G1 T2 R. apply gok_cons in G1 as (K1&D1&T1).
  assert (R' : bmrep C (k + 1) r (fun j x => f (km ((k, c1) :: r1) j x) (km r2 j x))).
  { eapply bmrep_ext; [exact R|]. intros. cbn beta. now rewrite km_tail by lia. }
  assert (E1 : forall x, f (cmem c1 x) (km r2 k x) = cl && cmem c1 x). { intros x. kmb T2. apply Hl. }
  assert (E2 : forall j x, lo <= j < k -> f (km ((k, c1) :: r1) j x) (km r2 j x) = false).
  { intros j x Hj. rewrite km_tail by lia. kmb T1. kmb T2. apply (f_none f cl Hl). }
  destruct cl.
  - apply bmrep_cons; auto. intros x Hx. rewrite km_head, E1. reflexivity.
  - eapply bmrep_skip; [exact R'|lia|]. intros j x Hj Hx. destruct (Z.eq_dec j k); [subst; rewrite km_head, E1; reflexivity|apply E2; lia].
Qed.
Lemma bm_right (C1 C2 C : container -> Prop) (f : bool -> bool -> bool) (cl cr : bool) (Hl : forall b, f b false = cl && b) (Hr : forall b, f false b = cr && b) (S2 : cr = true -> forall c, C2 c -> C c) lo k c2 r1 r2 r : gok C1 (k + 1) r1 -> gok C2 lo ((k, c2) :: r2) ->
  bmrep C (k + 1) r (fun j x => f (km r1 j x) (km r2 j x)) ->
  bmrep C lo (if cr then (k, c2) :: r else r) (fun j x => f (km r1 j x) (km ((k, c2) :: r2) j x)).
Proof.
  intros T1 G2 R. apply gok_cons in G2 as (K2&D2&T2).
  assert (R' : bmrep C (k + 1) r (fun j x => f (km r1 j x) (km ((k, c2) :: r2) j x))).
  { eapply bmrep_ext; [exact R|]. intros. cbn beta. now rewrite (km_tail k) by lia. }
  assert (E1 : forall x, f (km r1 k x) (cmem c2 x) = cr && cmem c2 x). { intros x. kmb T1. apply Hr. }
  assert (E2 : forall j x, lo <= j < k -> f (km r1 j x) (km ((k, c2) :: r2) j x) = false).
  { intros j x Hj. rewrite (km_tail k) by lia. kmb T1. kmb T2. apply (f_none f cl Hl). }
  destruct cr.
  - apply bmrep_cons; auto. intros x Hx. rewrite km_head, E1. reflexivity.
  - eapply bmrep_skip; [exact R'|lia|]. intros j x Hj Hx. destruct (Z.eq_dec j k); [subst; rewrite km_head, E1; reflexivity|apply E2; lia].
Qed.
Lemma hval_emit m k o t r : hval m t = Some r -> hval m (hemit k (option_map Own o) t) = Some (emit k o r).
Proof. intros V. destruct o; cbn; rewrite V; reflexivity. Qed.
Lemma refs_emit l k o t : refs l (hs (hemit k (option_map Own o) t)) = refs l (hs t).
Proof. destruct o; reflexivity. Qed.

Lemma merge_new_cons inl op cl cr cow1 cow2 k1 h1 t1 k2 h2 t2 :
  merge_new inl op cl cr cow1 cow2 ((k1, h1) :: t1) ((k2, h2) :: t2) =
    if k1 =? k2 then
      c1 <- load h1 ;; c2 <- load h2 ;;
      '(a, b, ans) <- merge_new inl op cl cr cow1 cow2 t1 t2 ;;
      ret ((k1, h1) :: a, (k2, h2) :: b, hemit k1 (option_map Own (op k1 c1 c2)) ans)
    else if k1 <? k2 then
      if cl then
        '(s, d) <- inl cow1 h1 ;; '(a, b, ans) <- merge_new inl op cl cr cow1 cow2 t1 ((k2, h2) :: t2) ;;
        ret ((k1, s) :: a, b, (k1, d) :: ans)
      else '(a, b, ans) <- merge_new inl op cl cr cow1 cow2 t1 ((k2, h2) :: t2) ;; ret ((k1, h1) :: a, b, ans)
    else
      if cr then
        '(s, d) <- inl cow2 h2 ;; '(a, b, ans) <- merge_new inl op cl cr cow1 cow2 ((k1, h1) :: t1) t2 ;; ret (a, (k2, s) :: b, (k2, d) :: ans)
      else '(a, b, ans) <- merge_new inl op cl cr cow1 cow2 ((k1, h1) :: t1) t2 ;; ret (a, (k2, h2) :: b, ans).
Proof. reflexivity. Qed.

Lemma merge_new_ok cow inl op cl cr (C1 C2 C : container -> Prop) f
  (Hin : copy_ok cow (inl cow)) (Hop : opok C1 C2 C f op)
  (Hl : forall b, f b false = cl && b) (Hr : forall b, f false b = cr && b)
  (S1 : cl = true -> forall c, C1 c -> C c) (S2 : cr = true -> forall c, C2 c -> C c) :
  forall es1 es2 lo m r1 r2 F, gok C1 lo r1 -> gok C2 lo r2 ->
  inv cow m (hs es1 ++ hs es2 ++ F) -> hval m es1 = Some r1 -> hval m es2 = Some r2 ->
  exists m' a b ans r, merge_new inl op cl cr cow cow es1 es2 m = Some (m', (a, b, ans)) /\
    inv cow m' (hs a ++ hs b ++ hs ans ++ F) /\ keeps F m m' /\
    hval m' a = Some r1 /\ hval m' b = Some r2 /\ hval m' ans = Some r /\
    bmrep C lo r (fun k x => f (km r1 k x) (km r2 k x)).
Proof.
  induction es1 as [|[k1 h1] t1 IH1].
  { intros es2 lo m r1 r2 F G1 G2 I V1 V2. injection V1 as <-.
    pose proof (bm_nil_l C2 C f cr Hr S2 lo r2 G2) as R. cbn [merge_new]. destruct es2 as [|p es2].
    - injection V2 as <-. destruct cr; (exists m, [], [], [], []; split; [reflexivity|]; split; [exact I|split; [apply keeps_refl|auto]]).
    - destruct cr.
      + destruct (copy_range_ok cow (p :: es2) m r2 F I V2) as (m'&a&b&E&I'&K&Va&Vb).
        exists m', [], a, b, r2. split; [unfold bind; rewrite E; reflexivity|]. split; [iv I'|auto].
      + exists m, [], (p :: es2), [], []. split; [reflexivity|]. split; [exact I|split; [apply keeps_refl|auto]]. }
  induction es2 as [|[k2 h2] t2 IH2].
  { intros lo m r1 r2 F G1 G2 I V1 V2. injection V2 as <-.
    pose proof (bm_nil_r C1 C f cl Hl S1 lo r1 G1) as R. cbn [merge_new]. destruct cl.
    - destruct (copy_range_ok cow ((k1, h1) :: t1) m r1 F I V1) as (m'&a&b&E&I'&K&Va&Vb).
      exists m', a, [], b, r1. split; [unfold bind; rewrite E; reflexivity|]. split; [iv I'|auto].
    - exists m, ((k1, h1) :: t1), [], [], []. split; [reflexivity|]. split; [exact I|split; [apply keeps_refl|auto]]. }
  intros lo m r1 r2 F G1 G2 I V1 V2. rewrite merge_new_cons.
  pose proof V1 as W1. pose proof V2 as W2. apply hval_cons in V1 as (c1&r1'&->&U1&V1). apply hval_cons in V2 as (c2&r2'&->&U2&V2).
  pose proof G1 as H1. pose proof G2 as H2. apply gok_cons in H1 as (L1&D1&T1). apply gok_cons in H2 as (L2&D2&T2).
  destruct (Z.eqb_spec k1 k2) as [<-|NE]; [|destruct (Z.ltb_spec k1 k2) as [LT|GE]].
  - assert (I' : inv cow m (hs t1 ++ hs t2 ++ h1 :: h2 :: F)) by iv I.
    destruct (IH1 t2 (k1 + 1) m r1' r2' (h1 :: h2 :: F) T1 T2 I' V1 V2) as (m'&a&b&ans&r&E&I2&K&Va&Vb&Vc&R).
    exists m', ((k1, h1) :: a), ((k1, h2) :: b), (hemit k1 (option_map Own (op k1 c1 c2)) ans), (emit k1 (op k1 c1 c2) r).
    unfold bind at 1. rewrite (load_ok _ _ _ U1). unfold bind at 1. rewrite (load_ok _ _ _ U2). unfold bind at 1. rewrite E. split; [reflexivity|].
    split. { eapply inv_ext; [exact I2|]. intros l. rsimp. rewrite refs_emit. rr l. }
    split; [kk K|]. split; [apply hval_cons_eq; [uk K U1|exact Va]|]. split; [apply hval_cons_eq; [uk K U2|exact Vb]|].
    split; [now apply hval_emit|]. apply (bm_eq C1 C2 C f cl Hl); auto. apply (Hop k1 c1 c2); auto.
  - assert (G2' : gok C2 (k1 + 1) ((k2, c2) :: r2')) by (apply gok_cons; repeat split; try apply T2; auto; lia).
    pose proof (bm_left C1 C2 C f cl Hl S1 lo k1 c1 r1' ((k2, c2) :: r2')) as B. destruct cl.
    + assert (I0 : inv cow m (h1 :: hs t1 ++ hs ((k2, h2) :: t2) ++ F)) by iv I.
      destruct (Hin m h1 c1 _ I0 U1) as (m1&s&d&E1&I1&K1&Us&Ud).
      assert (I' : inv cow m1 (hs t1 ++ hs ((k2, h2) :: t2) ++ s :: d :: F)) by iv I1.
      assert (V1' : hval m1 t1 = Some r1') by hk K1 V1. assert (V2' : hval m1 ((k2, h2) :: t2) = Some ((k2, c2) :: r2')) by hk K1 W2.
      destruct (IH1 ((k2, h2) :: t2) (k1 + 1) m1 r1' _ (s :: d :: F) T1 G2' I' V1' V2') as (m'&a&b&ans&r&E&I2&K&Va&Vb&Vc&R).
      exists m', ((k1, s) :: a), b, ((k1, d) :: ans), ((k1, c1) :: r).
      unfold bind at 1. rewrite E1. unfold bind at 1. rewrite E. split; [reflexivity|].
      split; [iv I2|]. split; [kt K1 K|]. split; [apply hval_cons_eq; [uk K Us|exact Va]|]. split; [exact Vb|].
      split; [apply hval_cons_eq; [uk K Ud|exact Vc]|]. apply B; auto.
    + assert (I' : inv cow m (hs t1 ++ hs ((k2, h2) :: t2) ++ h1 :: F)) by iv I.
      destruct (IH1 ((k2, h2) :: t2) (k1 + 1) m r1' _ (h1 :: F) T1 G2' I' V1 W2) as (m'&a&b&ans&r&E&I2&K&Va&Vb&Vc&R).
      exists m', ((k1, h1) :: a), b, ans, r. unfold bind at 1. rewrite E. split; [reflexivity|].
      split; [iv I2|]. split; [kk K|]. split; [apply hval_cons_eq; [uk K U1|exact Va]|]. split; [exact Vb|]. split; [exact Vc|]. apply B; auto.
  - assert (LT : k2 < k1) by lia. assert (G1' : gok C1 (k2 + 1) ((k1, c1) :: r1')) by (apply gok_cons; repeat split; try apply T1; auto; lia).
    pose proof (bm_right C1 C2 C f cl cr Hl Hr S2 lo k2 c2 ((k1, c1) :: r1') r2') as B. destruct cr.
    + assert (I0 : inv cow m (h2 :: hs ((k1, h1) :: t1) ++ hs t2 ++ F)) by iv I.
      destruct (Hin m h2 c2 _ I0 U2) as (m1&s&d&E1&I1&K1&Us&Ud).
      assert (I' : inv cow m1 (hs ((k1, h1) :: t1) ++ hs t2 ++ s :: d :: F)) by iv I1.
      assert (V1' : hval m1 ((k1, h1) :: t1) = Some ((k1, c1) :: r1')) by hk K1 W1. assert (V2' : hval m1 t2 = Some r2') by hk K1 V2.
      destruct (IH2 (k2 + 1) m1 _ r2' (s :: d :: F) G1' T2 I' V1' V2') as (m'&a&b&ans&r&E&I2&K&Va&Vb&Vc&R).
      exists m', a, ((k2, s) :: b), ((k2, d) :: ans), ((k2, c2) :: r).
      unfold bind at 1. rewrite E1. unfold bind at 1. rewrite E. split; [reflexivity|].
      split; [iv I2|]. split; [kt K1 K|]. split; [exact Va|]. split; [apply hval_cons_eq; [uk K Us|exact Vb]|].
      split; [apply hval_cons_eq; [uk K Ud|exact Vc]|]. apply B; auto.
    + assert (I' : inv cow m (hs ((k1, h1) :: t1) ++ hs t2 ++ h2 :: F)) by iv I.
      destruct (IH2 (k2 + 1) m _ r2' (h2 :: F) G1' T2 I' W1 V2) as (m'&a&b&ans&r&E&I2&K&Va&Vb&Vc&R).
      exists m', a, ((k2, h2) :: b), ans, r. unfold bind at 1. rewrite E. split; [reflexivity|].
      split; [iv I2|]. split; [kk K|]. split; [exact Va|]. split; [apply hval_cons_eq; [uk K U2|exact Vb]|]. split; [exact Vc|]. apply B; auto.
Qed.

Lemma merge_self_ok op (C1 C : container -> Prop) f (Hop : opok C1 C1 C f op) (Hf : f false false = false) :
  forall es lo m r, gok C1 lo r -> hval m es = Some r ->
  exists ans r', merge_self op es m = Some (m, own_all ans) /\ r' = ans /\ bmrep C lo r' (fun k x => f (km r k x) (km r k x)).
Proof.
  induction es as [|[k h] t IH]; intros lo m r G V.
  - injection V as <-. exists [], []. split; [reflexivity|]. split; auto. apply bmrep_nil. auto.
  - apply hval_cons in V as (c&r'&->&U&V). pose proof G as G'. apply gok_cons in G' as (L&D&T).
    destruct (IH (k + 1) m r' T V) as (ans&r2&E&->&R). exists (emit k (op k c c) ans), (emit k (op k c c) ans).
    cbn [merge_self]. unfold bind at 1. rewrite (load_ok _ _ _ U). unfold bind at 1. rewrite E.
    split; [destruct (op k c c); reflexivity|]. split; auto.
    apply bmrep_emit; auto.
    + specialize (Hop k c c D D). destruct (op k c c); [destruct Hop; split; auto|]; intros; rewrite km_head; auto.
    + intros j x Hj Hx. rewrite km_tail by lia. kmb T. exact Hf.
    + eapply bmrep_ext; [exact R|]. intros. cbn beta. now rewrite km_tail by lia.
Qed.

Definition orel (m : smem) (o : option handle) (oc : option container) : Prop :=
  match o, oc with Some h, Some c => unwrap m h = Some c | None, None => True | _, _ => False end.
Definition ohs (o : option handle) : list handle := match o with Some h => [h] | None => [] end.
Definition act_ok (cow : bool) (C1 C2 C : container -> Prop) (f : bool -> bool -> bool) (act : Z -> handle -> handle -> M (option handle)) : Prop :=
  forall k m h1 h2 c1 c2 F, C1 c1 -> C2 c2 -> inv cow m (h1 :: h2 :: F) -> unwrap m h1 = Some c1 -> unwrap m h2 = Some c2 ->
  exists m' o oc, act k h1 h2 m = Some (m', o) /\ inv cow m' (ohs o ++ h2 :: F) /\ keeps (h2 :: F) m m' /\ orel m' o oc /\
  match oc with Some c => C c /\ forall x, 0 <= x < 65536 -> cmem c x = f (cmem c1 x) (cmem c2 x)
              | None => forall x, 0 <= x < 65536 -> f (cmem c1 x) (cmem c2 x) = false end.
Lemma orel_own m oc : orel m (option_map Own oc) oc. Proof. destruct oc; cbn; auto. Qed.
Lemma ohs_own l oc F : refs l (ohs (option_map Own oc) ++ F) = refs l F. Proof. destruct oc; reflexivity. Qed.
Lemma act_op_ok cow C1 C2 C f op : (forall b, opok C1 C2 C f (op b)) -> act_ok cow C1 C2 C f (act_op op).
Proof.
  intros H k m h1 h2 c1 c2 F D1 D2 I U1 U2. unfold act_op. unfold bind at 1. rewrite (load_ok _ _ _ U1). unfold bind at 1. rewrite (load_ok _ _ _ U2).
  destruct (free_ok cow m h1 c1 (h2 :: F) I U1) as (m'&E&I'&K). destruct h1 as [c|l|l]; [| |discriminate].
  - exists m, (option_map Own (op false k c1 c2)), (op false k c1 c2). split; [reflexivity|].
    split; [eapply inv_ext; [exact I|intros l; rewrite ohs_own; rr l]|]. split; [apply keeps_refl|]. split; [apply orel_own|]. now apply H.
  - exists m', (option_map Own (op true k c1 c2)), (op true k c1 c2). unfold bind at 1. rewrite E. split; [reflexivity|].
    split; [eapply inv_ext; [exact I'|intros j; now rewrite ohs_own]|]. split; [exact K|]. split; [apply orel_own|]. now apply H.
Qed.
(** a full container is its own union *)
Definition full_ok (C1 C2 C : container -> Prop) (f : bool -> bool -> bool) : Prop :=
  forall c1 c2, C1 c1 -> C2 c2 -> container_is_full c1 = true -> C c1 /\ forall x, 0 <= x < 65536 -> cmem c1 x = f (cmem c1 x) (cmem c2 x).
Lemma act_or_ok cow C1 C2 C f op : full_ok C1 C2 C f ->
  (forall b k c1 c2, C1 c1 -> C2 c2 -> container_is_full c1 = false ->
    match op b k c1 c2 with Some c => C c /\ forall x, 0 <= x < 65536 -> cmem c x = f (cmem c1 x) (cmem c2 x)
                          | None => forall x, 0 <= x < 65536 -> f (cmem c1 x) (cmem c2 x) = false end) ->
  act_ok cow C1 C2 C f (act_or op).
Proof.
  intros HF H k m h1 h2 c1 c2 F D1 D2 I U1 U2. unfold act_or. unfold bind at 1. rewrite (load_ok _ _ _ U1).
  destruct (container_is_full c1) eqn:Ef.
  - exists m, (Some h1), (Some c1). split; [reflexivity|]. split; [exact I|]. split; [apply keeps_refl|]. split; [exact U1|]. now apply HF.
  - apply (act_op_ok cow (fun c => C1 c /\ container_is_full c = false) C2 C f op); auto. intros b k' x y [X1 X2] Y. now apply H.
Qed.
Lemma act_lazy_or_ok cow C1 C2 C f op : full_ok C1 C2 C f ->
  (forall k c1 c2, C1 c1 -> C2 c2 -> container_is_full c1 = false ->
    match op k c1 c2 with Some c => C c /\ forall x, 0 <= x < 65536 -> cmem c x = f (cmem c1 x) (cmem c2 x)
                        | None => forall x, 0 <= x < 65536 -> f (cmem c1 x) (cmem c2 x) = false end) ->
  act_ok cow C1 C2 C f (act_lazy_or op).
Proof.
  intros HF H k m h1 h2 c1 c2 F D1 D2 I U1 U2. unfold act_lazy_or. unfold bind at 1. rewrite (load_ok _ _ _ U1).
  destruct (container_is_full c1) eqn:Ef.
  - exists m, (Some h1), (Some c1). split; [reflexivity|]. split; [exact I|]. split; [apply keeps_refl|]. split; [exact U1|]. now apply HF.
  - destruct (writable_ok cow m h1 c1 (h2 :: F) I U1) as (m'&E&I'&K). assert (U2' : unwrap m' h2 = Some c2) by uk K U2.
    exists m', (option_map Own (op k c1 c2)), (op k c1 c2). unfold bind at 1. rewrite E. unfold bind at 1. rewrite (load_ok _ _ _ U2').
    split; [reflexivity|]. split; [eapply inv_ext; [exact I'|intros j; now rewrite ohs_own]|]. split; [exact K|]. split; [apply orel_own|]. now apply H.
Qed.
Lemma merge_in_cons act keepl cr cow2 k1 h1 t1 k2 h2 t2 :
  merge_in act keepl cr cow2 ((k1, h1) :: t1) ((k2, h2) :: t2) =
    if k1 =? k2 then
      o <- act k1 h1 h2 ;;
      '(a, b) <- merge_in act keepl cr cow2 t1 t2 ;;
      ret (hemit k1 o a, (k2, h2) :: b)
    else if k1 <? k2 then
      if keepl then '(a, b) <- merge_in act keepl cr cow2 t1 ((k2, h2) :: t2) ;; ret ((k1, h1) :: a, b)
      else (_ <- container_free h1 ;; merge_in act keepl cr cow2 t1 ((k2, h2) :: t2))
    else
      if cr then '(s, d) <- get_copy_of_container cow2 h2 ;; '(a, b) <- merge_in act keepl cr cow2 ((k1, h1) :: t1) t2 ;; ret ((k2, d) :: a, (k2, s) :: b)
      else '(a, b) <- merge_in act keepl cr cow2 ((k1, h1) :: t1) t2 ;; ret (a, (k2, h2) :: b).
Proof. reflexivity. Qed.

Lemma merge_in_ok cow act keepl cr (C1 C2 C : container -> Prop) f
  (Hact : act_ok cow C1 C2 C f act)
  (Hl : forall b, f b false = keepl && b) (Hr : forall b, f false b = cr && b)
  (S1 : keepl = true -> forall c, C1 c -> C c) (S2 : cr = true -> forall c, C2 c -> C c) :
  forall es1 es2 lo m r1 r2 F, gok C1 lo r1 -> gok C2 lo r2 ->
  inv cow m (hs es1 ++ hs es2 ++ F) -> hval m es1 = Some r1 -> hval m es2 = Some r2 ->
  exists m' a b r, merge_in act keepl cr cow es1 es2 m = Some (m', (a, b)) /\
    inv cow m' (hs a ++ hs b ++ F) /\ keeps F m m' /\
    hval m' a = Some r /\ hval m' b = Some r2 /\
    bmrep C lo r (fun k x => f (km r1 k x) (km r2 k x)).
Proof.
  induction es1 as [|[k1 h1] t1 IH1].
  { intros es2 lo m r1 r2 F G1 G2 I V1 V2. injection V1 as <-.
    pose proof (bm_nil_l C2 C f cr Hr S2 lo r2 G2) as R. cbn [merge_in]. destruct es2 as [|p es2].
    - injection V2 as <-. destruct cr; (exists m, [], [], []; split; [reflexivity|]; split; [exact I|split; [apply keeps_refl|auto]]).
    - destruct cr.
      + destruct (copy_range_ok cow (p :: es2) m r2 F I V2) as (m'&a&b&E&I'&K&Va&Vb).
        exists m', b, a, r2. split; [unfold bind; rewrite E; reflexivity|]. split; [iv I'|auto].
      + exists m, [], (p :: es2), []. split; [reflexivity|]. split; [exact I|split; [apply keeps_refl|auto]]. }
  induction es2 as [|[k2 h2] t2 IH2].
  { intros lo m r1 r2 F G1 G2 I V1 V2. injection V2 as <-.
    pose proof (bm_nil_r C1 C f keepl Hl S1 lo r1 G1) as R. cbn [merge_in]. destruct keepl.
    - exists m, ((k1, h1) :: t1), [], r1. split; [reflexivity|]. split; [exact I|split; [apply keeps_refl|auto]].
    - destruct (clear_ok cow ((k1, h1) :: t1) m r1 F I V1) as (m'&E&I'&K).
      exists m', [], [], []. split; [unfold bind; rewrite E; reflexivity|]. split; [exact I'|auto]. }
  intros lo m r1 r2 F G1 G2 I V1 V2. rewrite merge_in_cons.
  pose proof V1 as W1. pose proof V2 as W2. apply hval_cons in V1 as (c1&r1'&->&U1&V1). apply hval_cons in V2 as (c2&r2'&->&U2&V2).
  pose proof G1 as H1. pose proof G2 as H2. apply gok_cons in H1 as (L1&D1&T1). apply gok_cons in H2 as (L2&D2&T2).
  destruct (Z.eqb_spec k1 k2) as [<-|NE]; [|destruct (Z.ltb_spec k1 k2) as [LT|GE]].
  - assert (I0 : inv cow m (h1 :: h2 :: hs t1 ++ hs t2 ++ F)) by iv I.
    destruct (Hact k1 m h1 h2 c1 c2 _ D1 D2 I0 U1 U2) as (m1&o&oc&E1&I1&K1&Q&P).
    assert (I' : inv cow m1 (hs t1 ++ hs t2 ++ ohs o ++ h2 :: F)) by iv I1.
    assert (V1' : hval m1 t1 = Some r1') by hk K1 V1. assert (V2' : hval m1 t2 = Some r2') by hk K1 V2.
    assert (U2' : unwrap m1 h2 = Some c2) by uk K1 U2.
    destruct (IH1 t2 (k1 + 1) m1 r1' r2' (ohs o ++ h2 :: F) T1 T2 I' V1' V2') as (m'&a&b&r&E&I2&K&Va&Vb&R).
    exists m', (hemit k1 o a), ((k1, h2) :: b), (emit k1 oc r).
    unfold bind at 1. rewrite E1. unfold bind at 1. rewrite E. split; [reflexivity|].
    split. { eapply inv_ext; [exact I2|]. intros l. destruct o; cbn [hemit ohs]; rr l. }
    split; [kt K1 K|]. split.
    { destruct o as [h|], oc as [c|]; cbn [orel] in Q; try contradiction; cbn [hemit emit]; [|exact Va]. apply hval_cons_eq; [|exact Va]. cbn [ohs app] in K. uk K Q. }
    split; [apply hval_cons_eq; [uk K U2'|exact Vb]|]. apply (bm_eq C1 C2 C f keepl Hl); auto.
  - assert (G2' : gok C2 (k1 + 1) ((k2, c2) :: r2')) by (apply gok_cons; repeat split; try apply T2; auto; lia).
    pose proof (bm_left C1 C2 C f keepl Hl S1 lo k1 c1 r1' ((k2, c2) :: r2')) as B. destruct keepl.
    + assert (I' : inv cow m (hs t1 ++ hs ((k2, h2) :: t2) ++ h1 :: F)) by iv I.
      destruct (IH1 ((k2, h2) :: t2) (k1 + 1) m r1' _ (h1 :: F) T1 G2' I' V1 W2) as (m'&a&b&r&E&I2&K&Va&Vb&R).
      exists m', ((k1, h1) :: a), b, ((k1, c1) :: r). unfold bind at 1. rewrite E. split; [reflexivity|].
      split; [iv I2|]. split; [kk K|]. split; [apply hval_cons_eq; [uk K U1|exact Va]|]. split; [exact Vb|]. apply B; auto.
    + assert (I0 : inv cow m (h1 :: hs t1 ++ hs ((k2, h2) :: t2) ++ F)) by iv I.
      destruct (free_ok cow m h1 c1 _ I0 U1) as (m1&E1&I1&K1).
      assert (V1' : hval m1 t1 = Some r1') by hk K1 V1. assert (V2' : hval m1 ((k2, h2) :: t2) = Some ((k2, c2) :: r2')) by hk K1 W2.
      destruct (IH1 ((k2, h2) :: t2) (k1 + 1) m1 r1' _ F T1 G2' I1 V1' V2') as (m'&a&b&r&E&I2&K&Va&Vb&R).
      exists m', a, b, r. unfold bind at 1. rewrite E1. split; [exact E|].
      split; [iv I2|]. split; [kt K1 K|]. split; [exact Va|]. split; [exact Vb|]. apply B; auto.
  - assert (LT : k2 < k1) by lia. assert (G1' : gok C1 (k2 + 1) ((k1, c1) :: r1')) by (apply gok_cons; repeat split; try apply T1; auto; lia).
    pose proof (bm_right C1 C2 C f keepl cr Hl Hr S2 lo k2 c2 ((k1, c1) :: r1') r2') as B. destruct cr.
    + assert (I0 : inv cow m (h2 :: hs ((k1, h1) :: t1) ++ hs t2 ++ F)) by iv I.
      destruct (get_copy_ok cow m h2 c2 _ I0 U2) as (m1&s&d&E1&I1&K1&Us&Ud).
      assert (I' : inv cow m1 (hs ((k1, h1) :: t1) ++ hs t2 ++ s :: d :: F)) by iv I1.
      assert (V1' : hval m1 ((k1, h1) :: t1) = Some ((k1, c1) :: r1')) by hk K1 W1. assert (V2' : hval m1 t2 = Some r2') by hk K1 V2.
      destruct (IH2 (k2 + 1) m1 _ r2' (s :: d :: F) G1' T2 I' V1' V2') as (m'&a&b&r&E&I2&K&Va&Vb&R).
      exists m', ((k2, d) :: a), ((k2, s) :: b), ((k2, c2) :: r).
      unfold bind at 1. rewrite E1. unfold bind at 1. rewrite E. split; [reflexivity|].
      split; [iv I2|]. split; [kt K1 K|]. split; [apply hval_cons_eq; [uk K Ud|exact Va]|].
      split; [apply hval_cons_eq; [uk K Us|exact Vb]|]. apply B; auto.
    + assert (I' : inv cow m (hs ((k1, h1) :: t1) ++ hs t2 ++ h2 :: F)) by iv I.
      destruct (IH2 (k2 + 1) m _ r2' (h2 :: F) G1' T2 I' W1 V2) as (m'&a&b&r&E&I2&K&Va&Vb&R).
      exists m', a, ((k2, h2) :: b), r. unfold bind at 1. rewrite E. split; [reflexivity|].
      split; [iv I2|]. split; [kk K|]. split; [exact Va|]. split; [apply hval_cons_eq; [uk K U2|exact Vb]|]. apply B; auto.
Qed.

(** ** Updates of one bitmap *)
Definition ores (o : option container) (P : Z -> bool) : Prop :=
  match o with Some c => cok c /\ forall x, 0 <= x < 65536 -> cmem c x = P x | None => forall x, 0 <= x < 65536 -> P x = false end.
Lemma update_slot_ok cow k f absent (g : bool -> Z -> bool) : 
  (forall c, cok c -> ores (f c) (fun x => g (cmem c x) x)) -> ores absent (fun x => g false x) ->
  forall es lo m r F, gok cok lo r -> lo <= k < 65536 -> inv cow m (hs es ++ F) -> hval m es = Some r ->
  exists m' es' r', update_slot k f absent es m = Some (m', es') /\ inv cow m' (hs es' ++ F) /\ keeps F m m' /\ hval m' es' = Some r' /\
    bmrep cok lo r' (fun j x => if j =? k then g (km r k x) x else km r j x).
Proof.
  intros Hf Ha. induction es as [|[k' h] t IH]; intros lo m r F G Hk I V; cbn [update_slot].
  - injection V as <-. exists m, (hemit k (option_map Own absent) []), (emit k absent []). split; [reflexivity|].
    split; [eapply inv_ext; [exact I|intros l; rewrite !refs_app, refs_emit; rr l]|]. split; [apply keeps_refl|]. split; [now apply hval_emit|].
    apply bmrep_emit; auto.
    + unfold ores in Ha. destruct absent; [destruct Ha; split; auto|]; intros; rewrite Z.eqb_refl; auto.
    + intros. replace (j =? k) with false by lia. reflexivity.
    + apply bmrep_nil. intros. replace (k0 =? k) with false by lia. reflexivity.
  - pose proof V as W. apply hval_cons in V as (c&r'&->&U&V). pose proof G as G'. apply gok_cons in G' as (L&D&T).
    destruct (Z.eqb_spec k k') as [<-|NE]; [|destruct (Z.ltb_spec k k') as [LT|GE]].
    + destruct (writable_ok cow m h c (hs t ++ F) I U) as (m'&E&I'&K). assert (V' : hval m' t = Some r') by hk K V.
      exists m', (hemit k (option_map Own (f c)) t), (emit k (f c) r'). unfold bind. rewrite E. split; [reflexivity|].
      split; [eapply inv_ext; [exact I'|intros l; rewrite !refs_app, refs_emit; rr l]|]. split; [kk K|]. split; [now apply hval_emit|].
      specialize (Hf c D). apply bmrep_emit; auto.
      * unfold ores in Hf. destruct (f c); [destruct Hf; split; auto|]; intros; rewrite Z.eqb_refl, km_head; auto.
      * intros. replace (j =? k) with false by lia. rewrite km_tail by lia. kmb T. reflexivity.
      * eapply bmrep_ext; [apply bmrep_self; exact T|]. intros. cbn beta. replace (k0 =? k) with false by lia. now rewrite km_tail by lia.
    + exists m, (hemit k (option_map Own absent) ((k', h) :: t)), (emit k absent ((k', c) :: r')). split; [reflexivity|].
      split; [eapply inv_ext; [exact I|intros l; rewrite !refs_app, refs_emit; rr l]|]. split; [apply keeps_refl|]. split; [now apply hval_emit|].
      assert (T' : gok cok (k + 1) ((k', c) :: r')) by (apply gok_cons; repeat split; try apply T; auto; lia).
      apply bmrep_emit; auto.
      * unfold ores in Ha. destruct absent; [destruct Ha; split; auto|]; intros; rewrite Z.eqb_refl; kmb T'; auto.
      * intros. replace (j =? k) with false by lia. kmb T'. reflexivity.
      * eapply bmrep_ext; [apply bmrep_self; exact T'|]. intros. cbn beta. now replace (k0 =? k) with false by lia.
    + assert (I' : inv cow m (hs t ++ h :: F)) by iv I.
      destruct (IH (k' + 1) m r' (h :: F) T ltac:(lia) I' V) as (m'&es'&r2&E&I2&K&V'&R).
      exists m', ((k', h) :: es'), ((k', c) :: r2). unfold bind. rewrite E. split; [reflexivity|]. split; [iv I2|]. split; [kk K|].
      split; [apply hval_cons_eq; auto; uk K U|].
      apply bmrep_cons; auto.
      * intros. replace (k' =? k) with false by lia. now rewrite km_head.
      * intros. replace (j =? k) with false by lia. rewrite km_tail by lia. kmb T. reflexivity.
      * eapply bmrep_ext; [exact R|]. intros. cbn beta. now rewrite !km_tail by lia.
Qed.
Lemma update_keys_ok cow f absent (g : Z -> bool -> Z -> bool) : forall ks,
  (forall k, In k ks -> 0 <= k < 65536) -> NoDup ks ->
  (forall k c, In k ks -> cok c -> ores (f k c) (fun x => g k (cmem c x) x)) -> (forall k, In k ks -> ores (absent k) (fun x => g k false x)) ->
  forall es m r F, bok r -> inv cow m (hs es ++ F) -> hval m es = Some r ->
  exists m' es' r', update_keys ks f absent es m = Some (m', es') /\ inv cow m' (hs es' ++ F) /\ keeps F m m' /\ hval m' es' = Some r' /\
    rspec r' (fun j x => if existsb (Z.eqb j) ks then g j (km r j x) x else km r j x).
Proof.
  induction ks as [|k ks IH]; intros Hb Hn Hf Ha es m r F G I V.
  - exists m, es, r. split; [reflexivity|]. split; [exact I|]. split; [apply keeps_refl|]. split; auto. now apply bmrep_self.
  - inversion Hn as [|? ? Hni Hn']; subst. cbn [update_keys].
    destruct (update_slot_ok cow k (f k) (absent k) (g k) (fun c => Hf k c (or_introl eq_refl)) (Ha k (or_introl eq_refl)) es 0 m r F G (Hb k (or_introl eq_refl)) I V)
      as (m1&es1&r1&E1&I1&K1&V1&G1&R1).
    destruct (IH (fun j H => Hb j (or_intror H)) Hn' (fun j c H => Hf j c (or_intror H)) (fun j H => Ha j (or_intror H)) es1 m1 r1 F G1 I1 V1)
      as (m2&es2&r2&E2&I2&K2&V2&R2).
    exists m2, es2, r2. unfold bind. rewrite E1. split; [exact E2|]. split; [exact I2|]. split; [kt K1 K2|]. split; auto.
    eapply bmrep_ext; [exact R2|]. intros j x Hj Hx. cbn beta. cbn [existsb]. rewrite R1 by auto.
    destruct (Z.eqb_spec j k) as [->|NE]; cbn [orb]; auto.
    replace (existsb (Z.eqb k) ks) with false; auto. symmetry. apply not_true_is_false. intros E. apply existsb_exists in E as (y&Hy&E). apply Hni. now replace k with y by lia.
Qed.
Lemma map_writable_ok cow f (C1 C : container -> Prop) :
  (forall c, C1 c -> C (f c) /\ forall x, 0 <= x < 65536 -> cmem (f c) x = cmem c x) ->
  forall es lo m r F, gok C1 lo r -> inv cow m (hs es ++ F) -> hval m es = Some r ->
  exists m', map_writable f es m = Some (m', own_all (map (fun p => (fst p, f (snd p))) r)) /\ inv cow m' F /\ keeps F m m' /\
    bmrep C lo (map (fun p => (fst p, f (snd p))) r) (km r).
Proof.
  intros Hf. induction es as [|[k h] t IH]; intros lo m r F G I V; cbn [map_writable].
  - injection V as <-. exists m. split; [reflexivity|]. split; [exact I|]. split; [apply keeps_refl|]. now apply (bmrep_map C1 C).
  - apply hval_cons in V as (c&r'&->&U&V). pose proof G as G'. apply gok_cons in G' as (L&D&T).
    destruct (writable_ok cow m h c (hs t ++ F) I U) as (m1&E1&I1&K1). assert (V' : hval m1 t = Some r') by hk K1 V.
    destruct (IH (k + 1) m1 r' F T I1 V') as (m'&E&I2&K&R).
    exists m'. unfold bind at 1. rewrite E1. unfold bind at 1. rewrite E. split; [reflexivity|]. split; [exact I2|]. split; [kt K1 K|].
    now apply (bmrep_map C1 C).
Qed.
Lemma map_runs_ok cow f : (forall c, cok c -> cok (f c) /\ forall x, 0 <= x < 65536 -> cmem (f c) x = cmem c x) ->
  forall es lo m r F, gok cok lo r -> inv cow m (hs es ++ F) -> hval m es = Some r ->
  exists m' es' r', map_runs f es m = Some (m', es') /\ inv cow m' (hs es' ++ F) /\ keeps F m m' /\ hval m' es' = Some r' /\ bmrep cok lo r' (km r).
Proof.
  intros Hf. induction es as [|[k h] t IH]; intros lo m r F G I V; cbn [map_runs].
  - injection V as <-. exists m, [], []. split; [reflexivity|]. split; [exact I|]. split; [apply keeps_refl|]. split; auto. now apply bmrep_self.
  - apply hval_cons in V as (c&r'&->&U&V). pose proof G as G'. apply gok_cons in G' as (L&D&T). unfold bind at 1. rewrite (load_ok _ _ _ U).
    assert (Keep : exists m' es' r2, (t' <- map_runs f t ;; ret ((k, h) :: t')) m = Some (m', es') /\ inv cow m' (hs es' ++ F) /\ keeps F m m' /\ hval m' es' = Some r2 /\ bmrep cok lo r2 (km ((k, c) :: r'))).
    { assert (I' : inv cow m (hs t ++ h :: F)) by iv I. destruct (IH (k + 1) m r' (h :: F) T I' V) as (m'&es'&r2&E&I2&K&V2&R).
      exists m', ((k, h) :: es'), ((k, c) :: r2). unfold bind. rewrite E. split; [reflexivity|]. split; [iv I2|]. split; [kk K|].
      split; [apply hval_cons_eq; auto; uk K U|]. apply bmrep_cons; auto.
      - intros. now rewrite km_head.
      - intros. rewrite km_tail by lia. now kmb T.
      - eapply bmrep_ext; [exact R|]. intros. cbn beta. now rewrite km_tail by lia. }
    assert (Conv : exists m' es' r2, (_ <- container_free h ;; t' <- map_runs f t ;; ret ((k, Own (f c)) :: t')) m = Some (m', es') /\ inv cow m' (hs es' ++ F) /\ keeps F m m' /\ hval m' es' = Some r2 /\ bmrep cok lo r2 (km ((k, c) :: r'))).
    { destruct (free_ok cow m h c (hs t ++ F) I U) as (m1&E1&I1&K1). assert (V' : hval m1 t = Some r') by hk K1 V.
      destruct (IH (k + 1) m1 r' F T I1 V') as (m'&es'&r2&E&I2&K&V2&R). destruct (Hf c D) as (F1&F2).
      exists m', ((k, Own (f c)) :: es'), ((k, f c) :: r2). unfold bind. rewrite E1, E. split; [reflexivity|]. split; [iv I2|]. split; [kt K1 K|].
      split; [apply hval_cons_eq; auto|]. apply bmrep_cons; auto.
      - intros. rewrite km_head. auto.
      - intros. rewrite km_tail by lia. now kmb T.
      - eapply bmrep_ext; [exact R|]. intros. cbn beta. now rewrite km_tail by lia. }
    destruct c; auto.
Qed.
Lemma load_all_ok es : forall m r, hval m es = Some r -> load_all es m = Some (m, r).
Proof.
  induction es as [|[k h] t IH]; intros m r V; cbn [load_all].
  - injection V as <-. reflexivity.
  - apply hval_cons in V as (c&r'&->&U&V). unfold bind at 1. rewrite (load_ok _ _ _ U). unfold bind at 1. rewrite (IH m r' V). reflexivity.
Qed.
