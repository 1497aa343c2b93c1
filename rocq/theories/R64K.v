(** R64K: the bulk functions of the 64-bit bitmap and their context *)
From Verif Require Import Base ArrayUtil BitUtil BitsetC ArrayC RunC RunD Convert MixedI MixedU MixedA MixedN Containers RArray RBinary RPoint.
From Verif Require Import Art ArtT ArtR R64 R64P R64Q.
Local Opaque zr n48_pairs n256_pairs.

Inductive bulk_op := BAdd (v : Z) | BRemove (v : Z) | BContains (v : Z).
(** one bulk call with the context of the sequence; the answer of a contains call *)
Definition bulk_step (o : bulk_op) (r : r64) (cx : ctx) : option (r64 * ctx * option bool) :=
  match o with
  | BAdd v => do (r1, cx1) <- roaring64_bitmap_add_bulk r cx v; Some (r1, cx1, None)
  | BRemove v => do (r1, cx1) <- roaring64_bitmap_remove_bulk r cx v; Some (r1, cx1, None)
  | BContains v => do (cx1, b) <- roaring64_bitmap_contains_bulk r cx v; Some (r, cx1, Some b)
  end.
Fixpoint bulk_run (os : list bulk_op) (r : r64) (cx : ctx) : option (r64 * list bool) :=
  match os with
  | [] => Some (r, [])
  | o :: t =>
    do (r1, cx1, b) <- bulk_step o r cx;
    do (r2, bs) <- bulk_run t r1 cx1;
    Some (r2, match b with Some x => x :: bs | None => bs end)
  end.

(** the abstract machine: a set and the block, if any, that a removal through the context emptied *)
Definition block_empty (P : Z -> bool) (h : Z) : bool := cnt P (h * 65536) (h * 65536 + 65536) =? 0.
Definition hits (st : option Z) (v : Z) : bool := match st with Some h => h =? v / 65536 | None => false end.
Definition bulk_val (o : bulk_op) : Z := match o with BAdd v | BRemove v | BContains v => v end.
Definition bulk_set (o : bulk_op) (P : Z -> bool) : Z -> bool :=
  match o with BAdd v => fset P v true | BRemove v => fset P v false | BContains _ => P end.
Definition bulk_stale (o : bulk_op) (P : Z -> bool) (st : option Z) : option Z :=
  match o with
  | BAdd _ => None
  | BRemove v => if P v && block_empty (fset P v false) (v / 65536) then Some (v / 65536) else None
  | BContains v => if block_empty P (v / 65536) then st else None
  end.
Fixpoint bulk_spec (os : list bulk_op) (P : Z -> bool) (st : option Z) : option ((Z -> bool) * list bool) :=
  match os with
  | [] => Some (P, [])
  | o :: t =>
    if hits st (bulk_val o) then None
    else
      match bulk_spec t (bulk_set o P) (bulk_stale o P st) with
      | Some (Q, bs) => Some (Q, match o with BContains v => P v :: bs | _ => bs end)
      | None => None
      end
  end.

(** the context is unset, at an entry, or at a released one *)
Definition cxinv (r : r64) (cx : ctx) (st : option Z) : Prop :=
  match st with
  | None => c_leaf cx = 0 \/ exists l x t, R r (l ++ x :: t) /\ Forall (fun x => cok (e_c x)) (l ++ x :: t) /\ e_key x = c_high cx /\ e_lf x = c_leaf cx
  | Some h => c_leaf cx <> 0 /\ key6 (c_high cx) /\ kv (c_high cx) = h /\ exists v, leaf_raw (r_art r) (c_leaf cx) = Some v /\ get_container r v = None
  end.
Lemma block_empty_spec P h : block_empty P h = true <-> forall y, 0 <= y < 65536 -> at_key P h y = false.
Proof.
  unfold block_empty. rewrite Z.eqb_eq. split.
  - intros E y Y. unfold at_key. destruct (P (h * 65536 + y)) eqn:T; auto. exfalso.
    assert (cnt (fun x => x =? h * 65536 + y) (h * 65536) (h * 65536 + 65536) <= cnt P (h * 65536) (h * 65536 + 65536)).
    { apply cnt_mono. intros x X. destruct (Z.eqb_spec x (h * 65536 + y)) as [->|]; auto; discriminate. }
    rewrite (cnt_ext _ (fun x => if x =? h * 65536 + y then true else false)) in H by (intros; now destruct (_ =? _)).
    rewrite (cnt_one (fun _ => false)) in H by lia. rewrite (cnt_none (fun _ => false)) in H by auto. lia.
  - intros H. apply cnt_none. intros x X. specialize (H (x - h * 65536) ltac:(lia)). unfold at_key in H. rewrite <- H. f_equal. lia.
Qed.
Lemma den_entry r P l x t : den r P -> R r (l ++ x :: t) -> Forall (fun x => cok (e_c x)) (l ++ x :: t) -> Lx (l ++ x :: t) P.
Proof.
  intros D H F. split; [eapply R_sorted; eauto|]. split.
  - rewrite Forall_forall in *. intros z I. split; auto. eapply R_key; eauto.
  - intros k y K Y. pose proof (den_R r (l ++ x :: t) (fun v => mem (map ekc (l ++ x :: t)) v) H) as D2. assert (D3 : den r (fun v => mem (map ekc (l ++ x :: t)) v)).
    { exists (l ++ x :: t). split; auto. }
    assert (V : v64 (k * 65536 + y)) by now apply v64_kx. pose proof (roaring64_bitmap_contains_spec _ _ _ D V) as A. pose proof (roaring64_bitmap_contains_spec _ _ _ D3 V) as B.
    rewrite B in A. injection A as A. rewrite <- A. symmetry. now apply mem_km.
Qed.
Lemma Lx_cok xs P : Lx xs P -> Forall (fun x => cok (e_c x)) xs.
Proof. intros (_ & A & _). eapply Forall_impl; [|exact A]. cbn. tauto. Qed.
Lemma entry_nonempty r P l x t : R r (l ++ x :: t) -> Lx (l ++ x :: t) P -> block_empty P (kv (e_key x)) = false.
Proof.
  intros H L. apply Lx_at in L. apply rep_cne in L as (y & Y & T). destruct (block_empty P (kv (e_key x))) eqn:E; auto. apply block_empty_spec with (y := y) in E; auto. congruence.
Qed.
Lemma cx_test cx v : key6 (c_high cx) -> v64 v -> (art_compare_keys (c_high cx) (high48 v) =? 0) = (kv (c_high cx) =? v / 65536).
Proof. intros K V. pose proof (cmp_high _ _ K V) as (_ & A & _). destruct (Z.eqb_spec (kv (c_high cx)) (v / 65536)); [apply Z.eqb_eq|apply Z.eqb_neq]; tauto. Qed.
Lemma cx_high r cx st : cxinv r cx st -> c_leaf cx <> 0 -> key6 (c_high cx).
Proof.
  destruct st as [h|]; cbn [cxinv].
  - tauto.
  - intros [E|(l & x & t & H & _ & <- & _)] N; [tauto|]. eapply R_key; [exact H|apply in_elt].
Qed.

Lemma add_bulk_same r cx v : c_leaf cx <> 0 -> (art_compare_keys (c_high cx) (high48 v) =? 0) = true ->
  roaring64_bitmap_add_bulk r cx v = do (r1, _) <- containerptr_add r (high48 v) (low16 v) (c_leaf cx); Some (r1, cx).
Proof.
  intros N E. unfold roaring64_bitmap_add_bulk, containerptr_add. destruct (Z.eqb_spec (c_leaf cx) 0); [tauto|]. rewrite E. cbn [negb andb].
  destruct (leaf_raw _ _); auto. cbn [obind]. destruct (get_container _ _); auto. cbn [obind]. destruct (replace_container _ _ _); auto.
Qed.
Lemma remove_bulk_same r cx v : c_leaf cx <> 0 -> (art_compare_keys (c_high cx) (high48 v) =? 0) = true ->
  roaring64_bitmap_remove_bulk r cx v = do (r1, _) <- containerptr_remove r (high48 v) (low16 v) (c_leaf cx); Some (r1, cx).
Proof.
  intros N E. unfold roaring64_bitmap_remove_bulk, containerptr_remove. destruct (Z.eqb_spec (c_leaf cx) 0); [tauto|]. rewrite E. cbn [negb andb].
  destruct (leaf_raw _ _); auto. cbn [obind]. destruct (get_container _ _); auto. cbn [obind]. cbv zeta. destruct (replace_container _ _ _); auto. cbn [obind].
  destruct (container_nonzero_cardinality _); cbn [negb]; auto. destruct (art_erase _ _) as [[a [e|]]|]; auto.
Qed.

(** a stale context used on its own block *)
Lemma bulk_stale_ub o r cx h : cxinv r cx (Some h) -> v64 (bulk_val o) -> h = bulk_val o / 65536 -> bulk_step o r cx = None.
Proof.
  intros (N & K & E & v & RW & G) V H. assert (T : (art_compare_keys (c_high cx) (high48 (bulk_val o)) =? 0) = true) by (rewrite cx_test by auto; apply Z.eqb_eq; congruence).
  destruct o as [u|u|u]; cbn [bulk_val bulk_step] in *.
  - unfold roaring64_bitmap_add_bulk. destruct (Z.eqb_spec (c_leaf cx) 0); [tauto|]. rewrite T. cbn [negb andb]. rewrite RW. cbn [obind]. now rewrite G.
  - unfold roaring64_bitmap_remove_bulk. destruct (Z.eqb_spec (c_leaf cx) 0); [tauto|]. rewrite T. cbn [negb andb]. rewrite RW. cbn [obind]. now rewrite G.
  - unfold roaring64_bitmap_contains_bulk. destruct (Z.eqb_spec (c_leaf cx) 0); [tauto|]. rewrite T. cbn [negb orb]. rewrite RW. cbn [obind]. now rewrite G.
Qed.
Lemma find_unique r P l x t key : R r (l ++ x :: t) -> Lx (l ++ x :: t) P -> e_key x = key -> art_find (r_art r) key = Some (e_lf x).
Proof.
  intros H L E. assert (K : key6 key) by (rewrite <- E; eapply R_key; [exact H|apply in_elt]). destruct (R_find r _ key H K) as (lf & F & [(l2 & x2 & t2 & S & KX & -> & _)|(_ & N)]).
  - rewrite F. f_equal. assert (I : In x2 (l ++ x :: t)) by (rewrite S; apply in_elt). pose proof (Lx_mid _ _ _ _ L) as M. apply in_app_or in I as [I|[I|I]]; [exfalso|now subst|exfalso]; apply M, in_map_iff; exists x2;
      (split; [congruence|apply in_app_iff; auto]).
  - exfalso. apply N. rewrite <- E. apply in_map, in_elt.
Qed.

(** what the found or cached leaf of a value is *)
Lemma cx_leaf r P cx st v : den r P -> v64 v -> cxinv r cx st -> hits st v = false -> c_leaf cx <> 0 -> kv (c_high cx) = v / 65536 -> c_high cx = high48 v /\ st = None /\
  art_find (r_art r) (high48 v) = Some (c_leaf cx).
Proof.
  intros D V X NH N E. pose proof (cx_high _ _ _ X N) as K. destruct (kv_high48 v V) as (K2 & E2). assert (EH : c_high cx = high48 v) by (apply key6_inj; auto; congruence).
  split; auto. destruct st as [h|].
  - destruct X as (_ & _ & EX & _). cbn [hits] in NH. rewrite <- EX, E, Z.eqb_refl in NH. discriminate.
  - split; auto. destruct X as [X|(l & x & t & H & F & KX & LX)]; [tauto|]. rewrite <- LX. eapply find_unique; eauto using den_entry. congruence.
Qed.
Lemma add_bulk_step r P cx st v : den r P -> v64 v -> cxinv r cx st -> hits st v = false -> exists r1 cx1, roaring64_bitmap_add_bulk r cx v = Some (r1, cx1) /\
  den r1 (fset P v true) /\ cxinv r1 cx1 None.
Proof.
  intros D V X NH. destruct (containerptr_add_spec r P v D V) as (lf & r1 & lf1 & F & EA & D1 & (l & x & t & H & L & KX & LX) & _).
  destruct (Z.eq_dec (c_leaf cx) 0) as [Z0|N].
  - unfold roaring64_bitmap_add_bulk. rewrite Z0. cbn [Z.eqb negb andb]. rewrite F. cbn [obind]. rewrite EA. cbn [obind]. exists r1, (Ctx lf1 (high48 v)). split; auto. split; auto.
    right. exists l, x, t. eauto using Lx_cok.
  - pose proof (cx_test cx v (cx_high _ _ _ X N) V) as T. destruct (Z.eqb_spec (kv (c_high cx)) (v / 65536)) as [E|NE].
    + destruct (cx_leaf _ _ _ _ _ D V X NH N E) as (EH & _ & F2). rewrite F in F2. injection F2 as ->. rewrite add_bulk_same by auto. rewrite EA. cbn [obind].
      exists r1, cx. split; auto. split; auto. right. exists l, x, t. split; auto. split; [eauto using Lx_cok|]. split; [congruence|].
      rewrite LX. revert EA. unfold containerptr_add. destruct (Z.eqb_spec (c_leaf cx) 0); [tauto|]. cbn [negb]. destruct (leaf_raw _ _); cbn [obind]; [|discriminate].
      destruct (get_container _ _); cbn [obind]; [|discriminate]. destruct (replace_container _ _ _); cbn [obind]; congruence.
    + unfold roaring64_bitmap_add_bulk. rewrite T, andb_false_r. rewrite F. cbn [obind]. rewrite EA. cbn [obind]. exists r1, (Ctx lf1 (high48 v)). split; auto. split; auto.
      right. exists l, x, t. eauto using Lx_cok.
Qed.
Lemma remove_bulk_step r P cx st v : den r P -> v64 v -> cxinv r cx st -> hits st v = false -> exists r1 cx1, roaring64_bitmap_remove_bulk r cx v = Some (r1, cx1) /\
  den r1 (fset P v false) /\ cxinv r1 cx1 (if P v && block_empty (fset P v false) (v / 65536) then Some (v / 65536) else None).
Proof.
  intros D V X NH. destruct (kv_high48 v V) as (K & KE). destruct (containerptr_remove_spec r P v D V) as (lf & F & W).
  assert (G : exists r1 gone, containerptr_remove r (high48 v) (low16 v) lf = Some (r1, gone) /\ den r1 (fset P v false) /\
    forall cx1, c_leaf cx1 = lf -> c_high cx1 = high48 v -> cxinv r1 cx1 (if P v && block_empty (fset P v false) (v / 65536) then Some (v / 65536) else None)).
  { destruct W as [(-> & PV & E)|(l & x & t & H & L & KX & LF & NZ & RX & r1 & gone & E & D1 & W)].
    - exists r, false. split; [reflexivity|]. split; [eapply den_ext; [exact D|]; intros u U; symmetry; auto|]. intros cx1 C1 C2. rewrite PV. cbn [andb]. now left.
    - exists r1, gone. split; auto. split; auto. intros cx1 C1 C2. destruct gone.
      + destruct W as (-> & Z0 & val & RW & G). apply block_empty_spec in Z0. rewrite Z0. cbn [andb cxinv]. rewrite C1, C2. split; auto. split; auto. split; auto. eauto.
      + destruct W as (c & H1 & L1). pose proof (entry_nonempty _ _ _ _ _ H1 L1) as NE. cbn [setc e_key] in NE. rewrite KX, KE in NE. rewrite NE, andb_false_r.
        right. exists l, (setc x c), t. split; auto. split; [eauto using Lx_cok|]. cbn [setc e_key e_lf]. split; congruence. }
  destruct G as (r1 & gone & E & D1 & CX). destruct (Z.eq_dec (c_leaf cx) 0) as [Z0|N].
  - unfold roaring64_bitmap_remove_bulk. rewrite Z0. cbn [Z.eqb negb andb]. rewrite F. cbn [obind]. rewrite E. cbn [obind]. eexists _, _. split; [reflexivity|]. auto.
  - pose proof (cx_test cx v (cx_high _ _ _ X N) V) as T. destruct (Z.eqb_spec (kv (c_high cx)) (v / 65536)) as [EQ|NE].
    + destruct (cx_leaf _ _ _ _ _ D V X NH N EQ) as (EH & _ & F2). rewrite F in F2. injection F2 as ->. rewrite remove_bulk_same by auto. rewrite E. cbn [obind]. eexists _, _. split; [reflexivity|]. auto.
    + unfold roaring64_bitmap_remove_bulk. rewrite T, andb_false_r. rewrite F. cbn [obind]. rewrite E. cbn [obind]. eexists _, _. split; [reflexivity|]. auto.
Qed.
Lemma contains_bulk_step r P cx st v : den r P -> v64 v -> cxinv r cx st -> hits st v = false -> exists cx1, roaring64_bitmap_contains_bulk r cx v = Some (cx1, P v) /\
  cxinv r cx1 (if block_empty P (v / 65536) then st else None).
Proof.
  intros D V X NH. destruct (kv_high48 v V) as (K & KE). pose proof (roaring64_bitmap_contains_spec r P v D V) as CS. unfold roaring64_bitmap_contains in CS.
  destruct (den_find r P _ _ D K KE) as (lf & F & W). rewrite F in CS. cbn [obind] in CS.
  assert (G : (do leaf <- art_find (r_art r) (high48 v);
    if leaf =? 0 then Some (cx, false)
    else do v0 <- leaf_raw (r_art r) leaf; do c <- get_container r v0; Some (Ctx leaf (high48 v), container_contains c (low16 v))) =
    Some (if lf =? 0 then cx else Ctx lf (high48 v), P v) /\ cxinv r (if lf =? 0 then cx else Ctx lf (high48 v)) (if block_empty P (v / 65536) then st else None)).
  { rewrite F. cbn [obind]. destruct (Z.eqb_spec lf 0) as [LZ|N]; cbn [negb] in CS.
    - split; [congruence|]. destruct W as [(l & x & t & _ & _ & _ & _ & W & _)|(_ & Z0 & _)]; [tauto|]. replace (block_empty P (v / 65536)) with true by (symmetry; apply block_empty_spec; exact Z0). exact X.
    - destruct (leaf_raw _ _); cbn [obind] in *; [|discriminate]. destruct (get_container _ _); cbn [obind] in *; [|discriminate]. split; [congruence|].
      destruct W as [(l & x & t & H & L & KX & LF & _)|(W & _)]; [|tauto]. pose proof (entry_nonempty _ _ _ _ _ H L) as NE. rewrite KX, KE in NE. rewrite NE. right. exists l, x, t. eauto using Lx_cok. }
  destruct G as (G & GX). unfold roaring64_bitmap_contains_bulk. destruct (Z.eq_dec (c_leaf cx) 0) as [Z0|N].
  - rewrite Z0. cbn [Z.eqb orb]. eexists. split; [exact G|]. exact GX.
  - destruct (Z.eqb_spec (c_leaf cx) 0); [tauto|]. pose proof (cx_test cx v (cx_high _ _ _ X N) V) as T. destruct (Z.eqb_spec (kv (c_high cx)) (v / 65536)) as [EQ|NE]; rewrite T; cbn [negb orb].
    + destruct (cx_leaf _ _ _ _ _ D V X NH N EQ) as (EH & ST & F2). rewrite F in F2. injection F2 as ->. destruct (Z.eqb_spec (c_leaf cx) 0); [tauto|]. cbn [negb] in CS.
      destruct (leaf_raw _ _); cbn [obind] in *; [|discriminate]. destruct (get_container _ _); cbn [obind] in *; [|discriminate]. exists cx. split; [congruence|].
      subst st. replace (if block_empty P (v / 65536) then None else None) with (@None Z) by now destruct (block_empty _ _). exact X.
    + eexists. split; [exact G|]. exact GX.
Qed.
Lemma bulk_step_spec o r P cx st : den r P -> v64 (bulk_val o) -> cxinv r cx st -> hits st (bulk_val o) = false -> exists r1 cx1, 
  bulk_step o r cx = Some (r1, cx1, match o with BContains v => Some (P v) | _ => None end) /\ den r1 (bulk_set o P) /\ cxinv r1 cx1 (bulk_stale o P st).
Proof.
  intros D V X NH. destruct o as [v|v|v]; cbn [bulk_val bulk_step bulk_set bulk_stale] in *.
  - destruct (add_bulk_step _ _ _ _ _ D V X NH) as (r1 & cx1 & -> & A & B). exists r1, cx1. auto.
  - destruct (remove_bulk_step _ _ _ _ _ D V X NH) as (r1 & cx1 & -> & A & B). exists r1, cx1. auto.
  - destruct (contains_bulk_step _ _ _ _ _ D V X NH) as (cx1 & -> & B). exists r, cx1. auto.
Qed.
Lemma bulk_run_gen os : forall r P cx st, den r P -> Forall (fun o => v64 (bulk_val o)) os -> cxinv r cx st ->
  match bulk_spec os P st with
  | Some (Q, bs) => exists r', bulk_run os r cx = Some (r', bs) /\ den r' Q
  | None => bulk_run os r cx = None
  end.
Proof.
  induction os as [|o t IH]; intros r P cx st D F X; cbn [bulk_spec bulk_run].
  - exists r. auto.
  - inversion F as [|? ? V F']; subst. destruct (hits st (bulk_val o)) eqn:NH.
    + destruct st as [h|]; [|discriminate]. rewrite (bulk_stale_ub o r cx h X V); [reflexivity|]. cbn [hits] in NH. now apply Z.eqb_eq.
    + destruct (bulk_step_spec o r P cx st D V X NH) as (r1 & cx1 & -> & D1 & X1). cbn [obind]. specialize (IH r1 _ cx1 _ D1 F' X1).
      destruct (bulk_spec t (bulk_set o P) (bulk_stale o P st)) as [[Q bs]|].
      * destruct IH as (r' & -> & D'). cbn [obind]. exists r'. split; auto. now destruct o.
      * now rewrite IH.
Qed.
Lemma bulk_run_spec os r P : den r P -> Forall (fun o => v64 (bulk_val o)) os ->
  match bulk_spec os P None with
  | Some (Q, bs) => exists r', bulk_run os r ctx0 = Some (r', bs) /\ den r' Q
  | None => bulk_run os r ctx0 = None
  end.
Proof. intros D F. apply bulk_run_gen; auto. now left. Qed.

(** ** add_many, of_ptr, remove_many *)
Lemma add_many_run vs : forall r cx, bulk_run (map BAdd vs) r cx = do r1 <- add_many_loop r cx vs; Some (r1, []).
Proof.
  induction vs as [|v vs IH]; intros; cbn [map bulk_run add_many_loop bulk_step obind]; auto. destruct (roaring64_bitmap_add_bulk r cx v) as [[r1 cx1]|]; cbn [obind]; auto. rewrite IH.
  destruct (add_many_loop r1 cx1 vs); auto.
Qed.
Lemma remove_many_run vs : forall r cx, bulk_run (map BRemove vs) r cx = do r1 <- remove_many_loop r cx vs; Some (r1, []).
Proof.
  induction vs as [|v vs IH]; intros; cbn [map bulk_run remove_many_loop bulk_step obind]; auto. destruct (roaring64_bitmap_remove_bulk r cx v) as [[r1 cx1]|]; cbn [obind]; auto. rewrite IH.
  destruct (remove_many_loop r1 cx1 vs); auto.
Qed.
Lemma add_many_bulk vs : forall P, exists Q, bulk_spec (map BAdd vs) P None = Some (Q, []) /\ forall v, Q v = P v || zmem v vs.
Proof.
  induction vs as [|u vs IH]; intros P; cbn [map bulk_spec bulk_val hits bulk_set bulk_stale].
  - exists P. split; auto. intros v. cbn. now rewrite orb_false_r.
  - destruct (IH (fset P u true)) as (Q & -> & E). exists Q. split; auto. intros v. rewrite E. unfold fset, zmem. cbn [existsb]. destruct (v =? u); cbn; auto. now rewrite orb_true_r.
Qed.
Lemma roaring64_bitmap_add_many_spec r P vs : den r P -> Forall v64 vs -> exists r1, roaring64_bitmap_add_many r vs = Some r1 /\ den r1 (fun v => P v || zmem v vs).
Proof.
  intros D F. assert (F' : Forall (fun o => v64 (bulk_val o)) (map BAdd vs)) by (rewrite Forall_map; exact F).
  pose proof (bulk_run_spec (map BAdd vs) r P D F') as H. destruct (add_many_bulk vs P) as (Q & EQ & E). rewrite EQ in H. destruct H as (r1 & ER & D1). rewrite add_many_run in ER.
  unfold roaring64_bitmap_add_many. destruct (add_many_loop r ctx0 vs) as [r2|]; cbn [obind] in ER; [|discriminate]. injection ER as ->. exists r1. split; auto. eapply den_ext; [exact D1|]. intros v _. apply E.
Qed.
Lemma roaring64_bitmap_of_ptr_spec vs : Forall v64 vs -> exists r1, roaring64_bitmap_of_ptr vs = Some r1 /\ den r1 (fun v => zmem v vs).
Proof. intros F. destruct (roaring64_bitmap_add_many_spec _ _ vs den_create F) as (r1 & E & D). exists r1. auto. Qed.
(** when no value of the list falls in a block that the run has emptied *)
Lemma remove_many_bulk vs : forall P st Q bs, bulk_spec (map BRemove vs) P st = Some (Q, bs) -> bs = [] /\ forall v, Q v = P v && negb (zmem v vs).
Proof.
  induction vs as [|u vs IH]; intros P st Q bs; cbn [map bulk_spec bulk_val bulk_set].
  - intros E. injection E as <- <-. split; auto. intros v. cbn. now rewrite andb_true_r.
  - destruct (hits st u); [discriminate|]. destruct (bulk_spec (map BRemove vs) (fset P u false) _) as [[Q' bs']|] eqn:E; [|discriminate]. intros E2. injection E2 as <- <-.
    apply IH in E as (-> & E). split; auto. intros v. rewrite E. unfold fset, zmem. cbn [existsb]. destruct (v =? u); cbn; auto. now rewrite andb_false_r.
Qed.
(** values that are present and distinct are safe in any order *)
Lemma remove_many_present vs : forall P st, NoDup vs -> (forall v, In v vs -> P v = true) -> (forall h, st = Some h -> forall v, In v vs -> v / 65536 <> h) ->
  bulk_spec (map BRemove vs) P st <> None.
Proof.
  induction vs as [|u vs IH]; intros P st ND M S; cbn [map bulk_spec bulk_val bulk_set].
  - discriminate.
  - inversion ND as [|? ? NI ND']; subst. replace (hits st u) with false.
    + assert (G : bulk_spec (map BRemove vs) (fset P u false) (bulk_stale (BRemove u) P st) <> None).
      { apply IH; auto.
        - intros v I. unfold fset. destruct (Z.eqb_spec v u) as [->|]; [tauto|]. apply M. now right.
        - intros h E v I EH. unfold bulk_stale in E. destruct (P u && block_empty (fset P u false) (u / 65536)) eqn:B; [|discriminate]. injection E as <-. apply andb_true_iff in B as (_ & B).
          apply block_empty_spec with (y := v mod 65536) in B; [|apply Z.mod_pos_bound; lia]. unfold at_key in B. rewrite <- EH, <- v_split in B. unfold fset in B.
          destruct (Z.eqb_spec v u) as [VE|]; [congruence|]. rewrite M in B by (now right). discriminate. }
      destruct (bulk_spec _ _ _) as [[Q bs]|]; [discriminate|tauto].
    + symmetry. destruct st as [h|]; auto. cbn [hits]. apply Z.eqb_neq. intros E. apply (S h eq_refl u); [now left|auto].
Qed.
Lemma roaring64_bitmap_remove_many_spec r P vs : den r P -> Forall v64 vs ->
  match bulk_spec (map BRemove vs) P None with
  | Some _ => exists r1, roaring64_bitmap_remove_many r vs = Some r1 /\ den r1 (fun v => P v && negb (zmem v vs))
  | None => roaring64_bitmap_remove_many r vs = None
  end.
Proof.
  intros D F. assert (F' : Forall (fun o => v64 (bulk_val o)) (map BRemove vs)) by (rewrite Forall_map; exact F).
  pose proof (bulk_run_spec (map BRemove vs) r P D F') as H. destruct (bulk_spec (map BRemove vs) P None) as [[Q bs]|] eqn:B.
  - apply remove_many_bulk in B as (-> & E). destruct H as (r1 & ER & D1). rewrite remove_many_run in ER.
    unfold roaring64_bitmap_remove_many. destruct (remove_many_loop r ctx0 vs) as [r2|]; cbn [obind] in ER; [|discriminate]. injection ER as ->. exists r1. split; auto. eapply den_ext; [exact D1|]. intros v _. apply E.
  - rewrite remove_many_run in H. unfold roaring64_bitmap_remove_many. destruct (remove_many_loop r ctx0 vs); auto. discriminate.
Qed.
Lemma roaring64_bitmap_remove_many_present r P vs : den r P -> Forall v64 vs -> NoDup vs -> (forall v, In v vs -> P v = true) ->
  exists r1, roaring64_bitmap_remove_many r vs = Some r1 /\ den r1 (fun v => P v && negb (zmem v vs)).
Proof.
  intros D F ND M. pose proof (roaring64_bitmap_remove_many_spec r P vs D F) as H. destruct (bulk_spec (map BRemove vs) P None) as [q|] eqn:B; auto.
  exfalso. revert B. apply remove_many_present; auto. discriminate.
Qed.
(** the finding: {5}, remove_many [5; 6] *)
Lemma remove_many_stale : exists r vs, roaring64_bitmap_of_ptr [5] = Some r /\ Forall v64 vs /\ roaring64_bitmap_remove_many r vs = None.
Proof.
  assert (F5 : Forall v64 [5]) by (repeat constructor; lia). assert (F56 : Forall v64 [5; 6]) by (repeat constructor; lia).
  destruct (roaring64_bitmap_of_ptr_spec [5] F5) as (r & E & D). exists r, [5; 6]. split; auto. split; auto.
  pose proof (roaring64_bitmap_remove_many_spec r _ [5; 6] D) as H.
  match type of H with _ -> match ?b with _ => _ end => assert (B : b = None) end.
  { cbn [map bulk_spec bulk_val hits bulk_set bulk_stale]. replace (block_empty (fset (fun v => zmem v [5]) 5 false) (5 / 65536)) with true; [reflexivity|].
    symmetry. apply block_empty_spec. intros y Y. unfold at_key, fset, zmem. cbn [existsb]. rewrite orb_false_r. now destruct (_ =? 5). }
  rewrite B in H. now apply H.
Qed.
