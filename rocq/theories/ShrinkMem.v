(** ShrinkMem: shrink_to_fit of a bitmap in memory (src/roaring.c, include/roaring/containers/containers.h,
    src/containers/run.c).

    The table of chunks is the block of bytes of TabMem.v; the containers are objects in a heap, arrays
    and runs as blocks with a capacity (ArrBlk.v, RunMem.v).  The address of an object is its position in
    the heap.  Reading the table outside its block, following an address that is not in the heap and
    taking an object for one of another kind are undefined behaviour ([None]).  Allocation succeeds. *)
From Verif Require Import Base SpecTab.
From Verif Require TabMem ArrBlk RunMem.

Notation "'do' x <- e ; f" := (match e with Some x => f | None => None end) (at level 200, x pattern, e at level 100, f at level 200).

(** ** Model *)
(** containers.h:33-39, 59-63 and the four structs of containers; the kinds are 1 (bitset), 2 (array), 3 (run) and
    4 (shared: the kind and the address of what is shared) *)
Inductive obj := OBits (card : Z) (words : list Z) | OArr (b : ArrBlk.ablk) | ORun (b : RunMem.rblk) | OShared (kind at_ : Z).
Definition heap := list obj.
Definition obj_at (h : heap) (p : Z) : option obj := if (0 <=? p) && (p <? zlen h) then nth_error h (Z.to_nat p) else None.
Definition set_obj (h : heap) (p : Z) (o : obj) : heap := upd (Z.to_nat p) o h.
(** run.c:108-117 run_container_shrink_to_fit: the new block and the savings *)
Definition rb_shrink_to_fit (src : RunMem.rblk) : RunMem.rblk * Z :=
  if RunMem.nruns src =? RunMem.cap src then (src, 0)
  else (RunMem.RB (firstn (Z.to_nat (RunMem.nruns src)) (RunMem.cells src)) (RunMem.nruns src), RunMem.cap src - RunMem.nruns src).
(** containers.h:105-114 container_mutable_unwrap_shared *)
Definition unwrap_shared (h : heap) (p kind : Z) : option (Z * Z) :=
  if kind =? 4 then match obj_at h p with Some (OShared k q) => if k =? 4 then None else Some (q, k) | _ => None end
  else Some (p, kind).
(** containers.h:267-280 container_shrink_to_fit *)
Definition container_shrink_to_fit (h : heap) (p kind : Z) : option (heap * Z) :=
  do (p, kind) <- unwrap_shared h p kind;
  do o <- obj_at h p;
  match o with
  | OBits _ _ => if kind =? 1 then Some (h, 0) else None
  | OArr b => if kind =? 2 then let '(b', n) := ArrBlk.ab_shrink_to_fit b in Some (set_obj h p (OArr b'), n) else None
  | ORun b => if kind =? 3 then let '(b', n) := rb_shrink_to_fit b in Some (set_obj h p (ORun b'), n) else None
  | OShared _ _ => None
  end.
(** roaring.c:1430-1435: the chunks from i on, [n] of them *)
Fixpoint shrink_loop (n : nat) (h : heap) (ra : TabMem.table) (i answer : Z) : option (heap * Z) :=
  match n with
  | O => Some (h, answer)
  | S n' =>
    do c <- TabMem.ptr ra (i mod 2 ^ 16); do type_original <- TabMem.kind ra (i mod 2 ^ 16);
    do (h, savings) <- container_shrink_to_fit h c type_original;
    shrink_loop n' h ra (i + 1) (answer + savings)
  end.
(** roaring.c:1428-1438 roaring_bitmap_shrink_to_fit *)
Definition roaring_bitmap_shrink_to_fit (h : heap) (ra : TabMem.table) : option (heap * TabMem.table * Z) :=
  do (h, answer) <- shrink_loop (Z.to_nat (TabMem.tsize ra)) h ra 0 0;
  do (ra, savings) <- TabMem.ra_shrink_to_fit ra;
  Some (h, ra, answer + savings).
(** roaring.c:51-82 containerptr_roaring_bitmap_add, as long as the chunk is an array of its own that
    stays one: other chunks and the conversion to a bitset are outside this model ([None]) *)
Definition roaring_bitmap_add (h : heap) (ra : TabMem.table) (val : Z) : option (heap * TabMem.table) :=
  let hb := Z.shiftr val 16 in
  let low := val mod 2 ^ 16 in
  do i <- TabMem.ra_get_index ra hb;
  if 0 <=? i then
    do c <- TabMem.ptr ra i; do type <- TabMem.kind ra i;
    match obj_at h c with
    | Some (OArr b) => if type =? 2 then do (b', code) <- ArrBlk.ab_try_add b low 4096; if code =? -1 then None else Some (set_obj h c (OArr b'), ra) else None
    | _ => None
    end
  else
    do (b, _) <- ArrBlk.ab_try_add (ArrBlk.ab_create 0) low 4096;
    do ra <- TabMem.ra_insert_new_key_value_at ra (- i - 1) (Slot hb (zlen h) 2);
    Some (h ++ [OArr b], ra).
Fixpoint add_values (vs : list Z) (h : heap) (ra : TabMem.table) : option (heap * TabMem.table) :=
  match vs with [] => Some (h, ra) | v :: vs' => do (h, ra) <- roaring_bitmap_add h ra v; add_values vs' h ra end.

(** ** What is observed *)
(** the bytes allocated behind a container, without the structs, which stay *)
Definition obj_bytes (o : obj) : Z :=
  match o with OBits _ ws => 8 * zlen ws | OArr b => 2 * ArrBlk.acap b | ORun b => 4 * RunMem.cap b | OShared _ _ => 0 end.
Definition bytes_of (h : heap) (ra : TabMem.table) : Z := fold_right (fun o s => obj_bytes o + s) 0 h + zlen (TabMem.blk ra).
(** entries allocated but not used *)
Definition slack (o : obj) : Z :=
  match o with OArr b => ArrBlk.acap b - ArrBlk.an b | ORun b => RunMem.cap b - RunMem.nruns b | _ => 0 end.
(** what is stored: the words, the values or runs in use, the address of what is shared *)
Inductive content := CWords (card : Z) (ws : list Z) | CValues (l : list (option Z)) | CRuns (l : list (option (Z * Z))) | CShared (kind at_ : Z).
Definition stored (o : obj) : content :=
  match o with
  | OBits c ws => CWords c ws
  | OArr b => CValues (firstn (Z.to_nat (ArrBlk.an b)) (ArrBlk.acells b))
  | ORun b => CRuns (firstn (Z.to_nat (RunMem.nruns b)) (RunMem.cells b))
  | OShared k q => CShared k q
  end.
Definition obj_ok (o : obj) : Prop :=
  match o with OArr b => 0 <= ArrBlk.an b <= ArrBlk.acap b | ORun b => 0 <= RunMem.nruns b <= RunMem.cap b | _ => True end.
Definition kind_of (o : obj) : Z := match o with OBits _ _ => 1 | OArr _ => 2 | ORun _ => 3 | OShared _ _ => 4 end.
(** the chunk of a slot: directly, or through a shared object *)
Definition chunk_of (h : heap) (s : slot) (q : Z) : Prop :=
  (s_kind s <> 4 /\ q = s_ptr s /\ exists o, obj_at h q = Some o /\ kind_of o = s_kind s) \/
  (s_kind s = 4 /\ exists k o, obj_at h (s_ptr s) = Some (OShared k q) /\ k <> 4 /\ obj_at h q = Some o /\ kind_of o = k).

(** ** Proofs *)
Definition shrunk (o : obj) : obj :=
  match o with OArr b => OArr (fst (ArrBlk.ab_shrink_to_fit b)) | ORun b => ORun (fst (rb_shrink_to_fit b)) | _ => o end.
Lemma firstn_firstn_same {A} n (l : list A) : firstn n (firstn n l) = firstn n l.
Proof. rewrite firstn_firstn. now rewrite Nat.min_id. Qed.
Lemma zlen_firstn {A} n (l : list A) : 0 <= n <= zlen l -> zlen (firstn (Z.to_nat n) l) = n.
Proof. unfold zlen. intros H. rewrite firstn_length. lia. Qed.
Lemma shrunk_stored o : stored (shrunk o) = stored o.
Proof.
  destruct o as [c ws|b|b|k q]; try reflexivity; cbn [shrunk stored].
  - unfold ArrBlk.ab_shrink_to_fit. destruct (ArrBlk.an b =? _); cbn [fst ArrBlk.an ArrBlk.acells]; [reflexivity|]. now rewrite firstn_firstn_same.
  - unfold rb_shrink_to_fit. destruct (RunMem.nruns b =? _); cbn [fst RunMem.nruns RunMem.cells]; [reflexivity|]. now rewrite firstn_firstn_same.
Qed.
Lemma shrunk_kind o : kind_of (shrunk o) = kind_of o. Proof. destruct o; reflexivity. Qed.
Lemma shrunk_ok o : obj_ok o -> obj_ok (shrunk o) /\ slack (shrunk o) = 0.
Proof.
  destruct o as [c ws|b|b|k q]; cbn [shrunk obj_ok slack]; auto.
  - intros H. unfold ArrBlk.ab_shrink_to_fit. destruct (Z.eqb_spec (ArrBlk.an b) (ArrBlk.acap b)); cbn [fst]; [lia|]. unfold ArrBlk.acap in *. cbn [ArrBlk.an ArrBlk.acells]. rewrite zlen_firstn by lia. lia.
  - intros H. unfold rb_shrink_to_fit. destruct (Z.eqb_spec (RunMem.nruns b) (RunMem.cap b)); cbn [fst]; [lia|]. unfold RunMem.cap in *. cbn [RunMem.nruns RunMem.cells]. rewrite zlen_firstn by lia. lia.
Qed.
Lemma slack_nonneg o : obj_ok o -> 0 <= slack o. Proof. destruct o; cbn; lia. Qed.
Lemma no_slack_shrunk o : obj_ok o -> slack o = 0 -> shrunk o = o.
Proof.
  destruct o as [c ws|b|b|k q]; cbn [shrunk obj_ok slack]; auto; intros H E.
  - unfold ArrBlk.ab_shrink_to_fit. destruct (Z.eqb_spec (ArrBlk.an b) (ArrBlk.acap b)); [reflexivity|lia].
  - unfold rb_shrink_to_fit. destruct (Z.eqb_spec (RunMem.nruns b) (RunMem.cap b)); [reflexivity|lia].
Qed.
Lemma shrunk_twice o : obj_ok o -> shrunk (shrunk o) = shrunk o.
Proof. intros H. destruct (shrunk_ok o H). now apply no_slack_shrunk. Qed.
(** bytes given back: two per spare value, four per spare run *)
Lemma shrunk_bytes o : obj_ok o -> slack o <= obj_bytes o - obj_bytes (shrunk o) /\ (slack o = obj_bytes o - obj_bytes (shrunk o) -> slack o = 0).
Proof.
  intros H. pose proof (slack_nonneg o H). destruct (shrunk_ok o H) as (_ & S0). destruct o as [c ws|b|b|k q]; cbn [shrunk obj_bytes slack obj_ok] in *; try lia.
  - unfold ArrBlk.ab_shrink_to_fit in *. destruct (Z.eqb_spec (ArrBlk.an b) (ArrBlk.acap b)); cbn [fst] in *; [lia|]. unfold ArrBlk.acap in *. cbn [ArrBlk.an ArrBlk.acells] in *. lia.
  - unfold rb_shrink_to_fit in *. destruct (Z.eqb_spec (RunMem.nruns b) (RunMem.cap b)); cbn [fst] in *; [lia|]. unfold RunMem.cap in *. cbn [RunMem.nruns RunMem.cells] in *. lia.
Qed.

Definition heap_ok (h : heap) : Prop := Forall obj_ok h.
Lemma obj_at_ok h p o : heap_ok h -> obj_at h p = Some o -> obj_ok o.
Proof. intros H. unfold obj_at. destruct (_ && _); [|discriminate]. intros E. apply nth_error_In in E. exact (proj1 (Forall_forall _ _) H o E). Qed.
Lemma obj_at_set h p o o' q : obj_at h p = Some o -> obj_at (set_obj h p o') q = if q =? p then Some o' else obj_at h q.
Proof.
  unfold obj_at, set_obj. destruct ((0 <=? p) && (p <? zlen h)) eqn:P; [|discriminate]. intros E.
  assert (L : zlen (upd (Z.to_nat p) o' h) = zlen h) by (unfold zlen; now rewrite upd_length). rewrite L. apply andb_prop in P as (P1 & P2).
  destruct (Z.eqb_spec q p) as [->|N].
  - rewrite P1, P2. cbn [andb]. apply Z.leb_le in P1. apply Z.ltb_lt in P2. rewrite (nth_error_nth' _ o') by (rewrite upd_length; unfold zlen in *; lia).
    rewrite upd_nth by (unfold zlen in *; lia). now rewrite Nat.eqb_refl.
  - destruct ((0 <=? q) && (q <? zlen h)) eqn:Q; [|reflexivity]. apply andb_prop in Q as (Q1 & Q2). apply Z.leb_le in P1, Q1. apply Z.ltb_lt in P2, Q2.
    rewrite (nth_error_nth' _ o') by (rewrite upd_length; unfold zlen in *; lia). rewrite (nth_error_nth' h o') by (unfold zlen in *; lia). f_equal.
    rewrite upd_nth by (unfold zlen in *; lia). destruct (Nat.eqb_spec (Z.to_nat q) (Z.to_nat p)); [lia|reflexivity].
Qed.
Lemma set_obj_sum (f : obj -> Z) h p o o' : obj_at h p = Some o -> fold_right (fun o s => f o + s) 0 (set_obj h p o') = fold_right (fun o s => f o + s) 0 h - f o + f o'.
Proof.
  unfold obj_at, set_obj. destruct (_ && _); [|discriminate]. generalize (Z.to_nat p). clear p. induction h as [|x h IH]; intros n E; destruct n as [|n]; cbn in E; try discriminate.
  - injection E as ->. cbn. lia.
  - cbn [upd fold_right]. rewrite (IH n E). lia.
Qed.
Lemma set_obj_ok h p o' : heap_ok h -> obj_ok o' -> heap_ok (set_obj h p o').
Proof. intros H O. unfold set_obj. generalize (Z.to_nat p). induction H; intros [|n]; cbn [upd]; constructor; auto. apply IHForall. Qed.
Lemma set_obj_zlen h p o : zlen (set_obj h p o) = zlen h. Proof. unfold zlen, set_obj. now rewrite upd_length. Qed.

Lemma container_shrink_ok h s q : heap_ok h -> chunk_of h s q ->
  exists o, obj_at h q = Some o /\ (exists h1, container_shrink_to_fit h (s_ptr s) (s_kind s) = Some (h1, slack o) /\ heap_ok h1 /\ zlen h1 = zlen h /\
    (forall x, obj_at h1 x = if x =? q then Some (shrunk o) else obj_at h x) /\ (forall f : obj -> Z, fold_right (fun o s => f o + s) 0 h1 = fold_right (fun o s => f o + s) 0 h - f o + f (shrunk o))).
Proof.
  intros H C. assert (U : exists k o, unwrap_shared h (s_ptr s) (s_kind s) = Some (q, k) /\ obj_at h q = Some o /\ kind_of o = k /\ k <> 4).
  { unfold unwrap_shared. destruct C as [(N & -> & o & O & K)|(E & k & o & O & N & O' & K)].
    - destruct (Z.eqb_spec (s_kind s) 4); [contradiction|]. exists (s_kind s), o. auto.
    - rewrite E, Z.eqb_refl, O. destruct (Z.eqb_spec k 4); [contradiction|]. exists k, o. auto. }
  destruct U as (k & o & U & O & K & N). exists o. split; [exact O|]. unfold container_shrink_to_fit. rewrite U, O. subst k.
  pose proof (obj_at_ok h q o H O) as OK. pose proof (shrunk_ok o OK) as (OK' & _).
  assert (G : exists h1, h1 = set_obj h q (shrunk o) /\ heap_ok h1 /\ zlen h1 = zlen h /\ (forall x, obj_at h1 x = if x =? q then Some (shrunk o) else obj_at h x) /\ (forall f : obj -> Z, fold_right (fun o s => f o + s) 0 h1 = fold_right (fun o s => f o + s) 0 h - f o + f (shrunk o))).
  { eexists. split; [reflexivity|]. split; [now apply set_obj_ok|]. split; [apply set_obj_zlen|]. split; [intros x; now apply (obj_at_set h q o)|]. intros f. now apply set_obj_sum. }
  destruct o as [c ws|b|b|k' q']; cbn [kind_of] in *; [| | |now contradiction N].
  - exists h. split; [reflexivity|]. split; [exact H|]. split; [reflexivity|]. split; [|intros f; cbn [shrunk]; lia]. intros x. destruct (Z.eqb_spec x q) as [->|]; [exact O|reflexivity].
  - destruct G as (h1 & -> & G). exists (set_obj h q (shrunk (OArr b))). split; [|exact G]. cbn [shrunk slack obj_ok] in *. change (2 =? 2) with true. cbn iota.
    destruct (ArrBlk.ab_shrink_to_fit b) as (b', n) eqn:E. cbn [fst]. f_equal. f_equal. unfold ArrBlk.ab_shrink_to_fit in E. destruct (Z.eqb_spec (ArrBlk.an b) (ArrBlk.acap b)); injection E as <- <-; lia.
  - destruct G as (h1 & -> & G). exists (set_obj h q (shrunk (ORun b))). split; [|exact G]. cbn [shrunk slack obj_ok] in *. change (3 =? 3) with true. cbn iota.
    destruct (rb_shrink_to_fit b) as (b', n) eqn:E. cbn [fst]. f_equal. f_equal. unfold rb_shrink_to_fit in E. destruct (Z.eqb_spec (RunMem.nruns b) (RunMem.cap b)); injection E as <- <-; lia.
Qed.
Lemma chunk_of_keep h h1 q0 o0 s q : obj_at h q0 = Some o0 -> (forall x, obj_at h1 x = if x =? q0 then Some (shrunk o0) else obj_at h x) -> (chunk_of h1 s q <-> chunk_of h s q).
Proof.
  intros O E. assert (K : forall x k, (exists o, obj_at h1 x = Some o /\ kind_of o = k) <-> (exists o, obj_at h x = Some o /\ kind_of o = k)).
  { intros x k. rewrite E. destruct (Z.eqb_spec x q0) as [->|]; [|reflexivity]. rewrite O. split; intros (o & Q & Q'); injection Q as <-; [exists o0|exists (shrunk o0)]; split; auto; [rewrite <- Q'; symmetry|rewrite <- Q']; apply shrunk_kind. }
  assert (SH : forall x k y, obj_at h1 x = Some (OShared k y) <-> obj_at h x = Some (OShared k y)).
  { intros x k y. rewrite E. destruct (Z.eqb_spec x q0) as [->|]; [|reflexivity]. rewrite O. destruct o0; cbn [shrunk]; split; congruence. }
  unfold chunk_of. split; (intros [(N & -> & Q)|(N & k & o & Q1 & Q2 & Q3 & Q4)]; [left; repeat split; auto; now apply K|right; split; [exact N|]]).
  - assert (X : exists o, obj_at h q = Some o /\ kind_of o = k) by (apply K; eauto). destruct X as (o' & X1 & X2). exists k, o'. rewrite SH in Q1. auto.
  - assert (X : exists o, obj_at h1 q = Some o /\ kind_of o = k) by (apply K; eauto). destruct X as (o' & X1 & X2). exists k, o'. rewrite SH. auto.
Qed.
Lemma chunk_of_fun h s q q' : chunk_of h s q -> chunk_of h s q' -> q = q'.
Proof. intros [(N & -> & _)|(N & k & o & Q & _)] [(N' & -> & _)|(N' & k' & o' & Q' & _)]; try congruence. Qed.

Definition sum (f : obj -> Z) (h : heap) : Z := fold_right (fun o s => f o + s) 0 h.
Lemma shrink_loop_ok ra : forall l n h i a, TabMem.read_rows n ra i = Some l -> 0 <= i -> i + Z.of_nat n <= 65536 -> heap_ok h -> (forall s, In s l -> exists q, chunk_of h s q) ->
  exists h' m, shrink_loop n h ra i a = Some (h', a + m) /\ heap_ok h' /\ zlen h' = zlen h /\
    (forall q o, obj_at h q = Some o -> exists o', obj_at h' q = Some o' /\ (o' = o \/ o' = shrunk o)) /\
    (forall s q o, In s l -> chunk_of h s q -> obj_at h q = Some o -> obj_at h' q = Some (shrunk o)) /\
    (forall q, (forall s, In s l -> ~ chunk_of h s q) -> obj_at h' q = obj_at h q) /\
    m = sum slack h - sum slack h' /\ m <= sum obj_bytes h - sum obj_bytes h' /\
    (m = sum obj_bytes h - sum obj_bytes h' <-> forall s q o, In s l -> chunk_of h s q -> obj_at h q = Some o -> slack o = 0).
Proof.
  induction l as [|s l IH]; intros n h i a R I B H C; destruct n as [|n]; cbn [TabMem.read_rows] in R.
  - exists h, 0. cbn [shrink_loop]. rewrite Z.add_0_r. split; [reflexivity|]. split; [exact H|]. split; [reflexivity|]. split; [eauto|]. split; [contradiction|]. split; [reflexivity|]. split; [lia|]. split; [lia|]. split; [contradiction|]. lia.
  - destruct (TabMem.key ra i), (TabMem.ptr ra i), (TabMem.kind ra i), (TabMem.read_rows n ra (i + 1)); discriminate.
  - discriminate.
  - destruct (TabMem.key ra i) as [k|]; [|discriminate]. destruct (TabMem.ptr ra i) as [p|] eqn:EP; [|discriminate]. destruct (TabMem.kind ra i) as [t|] eqn:ET; [|discriminate].
    destruct (TabMem.read_rows n ra (i + 1)) as [l'|] eqn:ER; [|discriminate]. injection R as <- <-. cbn [shrink_loop]. rewrite Z.mod_small by lia. rewrite EP, ET.
    destruct (C (Slot k p t) (or_introl eq_refl)) as (q & Q). destruct (container_shrink_ok h _ q H Q) as (o & O & h1 & E1 & H1 & L1 & A1 & F1). cbn [s_ptr s_kind] in E1. rewrite E1.
    assert (KP : forall s q, chunk_of h1 s q <-> chunk_of h s q) by (intros s0 q0; apply (chunk_of_keep h h1 q o); auto).
    destruct (IH n h1 (i + 1) (a + slack o) ER) as (h' & m & E2 & H2 & L2 & P1 & P2 & P3 & P4 & P5 & P6); try lia; auto.
    { intros s0 S0. destruct (C s0 (or_intror S0)) as (q0 & Q0). exists q0. now apply KP. }
    pose proof (obj_at_ok h q o H O) as OK. pose proof (shrunk_bytes o OK) as (B1 & B2). pose proof (slack_nonneg o OK) as B0.
    pose proof (F1 slack) as FS. pose proof (F1 obj_bytes) as FB. fold (sum slack h1) in FS. fold (sum slack h) in FS. fold (sum obj_bytes h1) in FB. fold (sum obj_bytes h) in FB. rewrite (proj2 (shrunk_ok o OK)) in FS.
    exists h', (slack o + m). split; [rewrite E2; f_equal; f_equal; lia|]. split; [exact H2|]. split; [lia|].
    assert (AT : obj_at h' q = Some (shrunk o)).
    { destruct (P1 q (shrunk o)) as (o' & X & [->| ->]); [rewrite A1, Z.eqb_refl; reflexivity|exact X|]. rewrite X. f_equal. now apply shrunk_twice. }
    split.
    { intros q0 o0 O0. destruct (Z.eq_dec q0 q) as [->|N].
      - rewrite O in O0. injection O0 as <-. exists (shrunk o). auto.
      - apply P1. rewrite A1. destruct (Z.eqb_spec q0 q); [contradiction|exact O0]. }
    split.
    { intros s0 q0 o0 [<-|S0] Q0 O0.
      - rewrite <- (chunk_of_fun h _ q q0 Q Q0) in O0 |- *. rewrite O in O0. injection O0 as <-. exact AT.
      - destruct (Z.eq_dec q0 q) as [->|N].
        + rewrite O in O0. injection O0 as <-. exact AT.
        + apply (P2 s0); auto; [now apply KP|]. rewrite A1. destruct (Z.eqb_spec q0 q); [contradiction|exact O0]. }
    split.
    { intros q0 Q0. rewrite P3.
      - rewrite A1. destruct (Z.eqb_spec q0 q) as [->|]; [|reflexivity]. exfalso. apply (Q0 (Slot k p t)); [now left|exact Q].
      - intros s0 S0 X. apply KP in X. apply (Q0 s0); [now right|exact X]. }
    split; [lia|]. split; [lia|]. split.
    + intros EQ. assert (S0 : slack o = 0) by (apply B2; lia). assert (EM : m = sum obj_bytes h1 - sum obj_bytes h') by lia. pose proof (proj1 P6 EM) as Q6.
      intros s0 q0 o0 [<-|S1] Q0 O0.
      * rewrite <- (chunk_of_fun h _ q q0 Q Q0) in O0. rewrite O in O0. injection O0 as <-. exact S0.
      * destruct (Z.eq_dec q0 q) as [->|N]; [rewrite O in O0; injection O0 as <-; exact S0|]. apply (Q6 s0 q0 o0 S1); [now apply KP|]. rewrite A1. destruct (Z.eqb_spec q0 q); [contradiction|exact O0].
    + intros ALL. assert (S0 : slack o = 0) by (apply (ALL (Slot k p t) q o); [now left|exact Q|exact O]). pose proof (no_slack_shrunk o OK S0) as SS. rewrite SS in *.
      assert (EM : m = sum obj_bytes h1 - sum obj_bytes h').
      { apply P6. intros s0 q0 o0 S1 Q0 O0. apply (ALL s0 q0 o0); [now right|now apply KP|]. rewrite A1 in O0. destruct (Z.eqb_spec q0 q) as [->|]; [|exact O0]. injection O0 as <-. exact O. }
      lia.
Qed.

Theorem bitmap_shrink cap p h ra : 0 <= cap -> tlegal p [] -> TabMem.tab_run p (TabMem.ra_init_with_capacity cap) = Some ra ->
  Forall obj_ok h -> (forall s, In s (trun p []) -> exists q, chunk_of h s q) ->
  exists h' ra' n, roaring_bitmap_shrink_to_fit h ra = Some (h', ra', n) /\ TabMem.read_table ra' = Some (trun p []) /\
    (forall q, option_map stored (obj_at h' q) = option_map stored (obj_at h q)) /\
    (forall s q, In s (trun p []) -> chunk_of h s q -> option_map slack (obj_at h' q) = Some 0) /\ zlen (TabMem.blk ra') = 11 * size_of (trun p []) /\
    (forall q, (forall s, In s (trun p []) -> ~ chunk_of h s q) -> obj_at h' q = obj_at h q) /\
    n = sum slack h - sum slack h' + (zlen (TabMem.blk ra) - zlen (TabMem.blk ra')) /\
    n <= bytes_of h ra - bytes_of h' ra' /\
    (n = bytes_of h ra - bytes_of h' ra' <-> forall s q o, In s (trun p []) -> chunk_of h s q -> obj_at h q = Some o -> slack o = 0).
Proof.
  intros C L E H CH. destruct (TabMem.init_with_capacity_holds cap C) as (H0 & _). destruct (TabMem.tab_run_ok p _ _ H0 L) as (ra0 & E0 & HT). rewrite E in E0. injection E0 as <-.
  destruct (TabMem.read_table_ok _ _ HT) as (RT & _ & A1). pose proof (TabMem.holds_size _ _ HT) as (TS & _). unfold TabMem.read_table in RT. pose proof (zlen_nonneg (trun p [])) as Z0.
  destruct (shrink_loop_ok ra _ (Z.to_nat (TabMem.tsize ra)) h 0 0 RT) as (h' & m & E1 & H1 & L1 & P1 & P2 & P3 & P4 & P5 & P6); auto; try lia.
  destruct (TabMem.shrink_ok ra _ HT) as (ra' & sv & E2 & HT' & A2 & S2). destruct (TabMem.read_table_ok _ _ HT') as (RT' & B2 & _).
  unfold roaring_bitmap_shrink_to_fit. rewrite E1, E2. exists h', ra', (0 + m + sv). split; [reflexivity|]. split; [exact RT'|].
  split.
  { intros q. destruct (obj_at h q) as [o|] eqn:O.
    - destruct (P1 q o O) as (o' & -> & [->| ->]); cbn [option_map]; [reflexivity|]. now rewrite shrunk_stored.
    - assert (N : obj_at h' q = None); [|now rewrite N]. unfold obj_at in *. rewrite L1. destruct ((0 <=? q) && (q <? zlen h)); [|reflexivity].
      apply nth_error_None in O. apply nth_error_None. unfold zlen in L1. lia. }
  split.
  { intros s q S0 Q0. assert (O : exists o, obj_at h q = Some o). { destruct Q0 as [(_ & _ & o & O & _)|(_ & _ & o & _ & _ & O & _)]; eauto. }
    destruct O as (o & O). rewrite (P2 s q o S0 Q0 O). cbn [option_map]. f_equal. apply shrunk_ok. exact (obj_at_ok h q o H O). }
  split; [rewrite B2, A2; reflexivity|]. split; [exact P3|]. split; [lia|].
  unfold bytes_of. fold (sum obj_bytes h). fold (sum obj_bytes h'). split; [lia|]. rewrite <- P6. lia.
Qed.
Lemma add_three_shrink : exists vs h ra h' ra' n, Forall (fun v => 0 <= v < 2 ^ 32) vs /\ add_values vs [] TabMem.ra_init = Some (h, ra) /\
  roaring_bitmap_shrink_to_fit h ra = Some (h', ra', n) /\ n <> bytes_of h ra - bytes_of h' ra'.
Proof.
  exists [1; 2; 3].
  destruct (add_values [1; 2; 3] [] TabMem.ra_init) as [(h, ra)|] eqn:E; [|vm_compute in E; discriminate]. vm_compute in E. injection E as <- <-.
  eexists _, _, _, _, _. split; [|split; [reflexivity|split; [vm_compute; reflexivity|vm_compute; discriminate]]].
  repeat constructor; lia.
Qed.
