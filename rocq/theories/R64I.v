(** R64I: enumeration and iterators of the 64-bit bitmap *)
From Verif Require Import Base ArrayUtil BitUtil BitsetC ArrayC RunC RunD Convert MixedI MixedU MixedA MixedN Containers RArray RBinary RPoint.
From Verif Require RQuery Iter IterP.
From Verif Require Import Art ArtT ArtI ArtR R64 R64P R64Q R64K R64C R64R R64B.
Local Opaque zr n48_pairs n256_pairs.

(** ** Members in order *)
Definition from (P : Z -> bool) (lo : Z) : list Z := filter P (zr lo (2^64)).
Lemma from_gap P lo h : lo * 65536 <= h * 65536 <= 2^64 -> (forall v, lo * 65536 <= v < h * 65536 -> P v = false) -> from P (lo * 65536) = from P (h * 65536).
Proof.
  intros L G. unfold from. rewrite (zr_app (lo * 65536) (h * 65536)) by lia. rewrite filter_app, filter_none; auto. intros x I. apply zr_In in I. auto.
Qed.
Lemma from_skip P lo h : lo <= h <= 2^64 -> (forall v, lo <= v < h -> P v = false) -> from P lo = from P h.
Proof. intros L G. unfold from. rewrite (zr_app lo h) by lia. rewrite filter_app, filter_none; auto. intros x I. apply zr_In in I. auto. Qed.
Lemma from_nil P lo : (forall v, lo <= v < 2^64 -> P v = false) -> from P lo = [].
Proof. intros G. unfold from. apply filter_none. intros x I. apply zr_In in I. auto. Qed.
Lemma from_at P v : 0 <= v < 2^64 -> P v = true -> from P v = v :: from P (v + 1).
Proof. intros V T. unfold from. rewrite zr_cons by lia. cbn [filter]. now rewrite T. Qed.
Lemma block_list P h c a : rep c (at_key P h) -> 0 <= a <= 65536 -> filter P (zr (h * 65536 + a) ((h + 1) * 65536)) = map (fun y => h * 65536 + y) (filter (cmem c) (zr a 65536)).
Proof.
  intros (O & M) A. replace ((h + 1) * 65536) with (h * 65536 + 65536) by lia. rewrite <- zr_map_add, filter_map_comm. f_equal. apply filter_ext_In. intros y I. apply zr_In in I. symmetry. apply M. lia.
Qed.
Lemma from_block P h c a : 0 <= h < 2^48 -> rep c (at_key P h) -> 0 <= a <= 65536 -> from P (h * 65536 + a) = map (fun y => h * 65536 + y) (filter (cmem c) (zr a 65536)) ++ from P ((h + 1) * 65536).
Proof. intros H RC A. unfold from. rewrite (zr_app _ ((h + 1) * 65536)) by lia. rewrite filter_app. f_equal. now apply block_list. Qed.

(** ** The callback enumeration *)
Lemma lor_high k x : 0 <= x < 2^32 -> Z.lor (k * 2^32) x = k * 2^32 + x.
Proof.
  intros Hx. enough (E : Z.land (k * 2^32) x = 0) by (rewrite <- Z.lxor_lor by auto; rewrite <- Z.add_nocarry_lxor by auto; lia). apply Z.bits_inj'. intros n Hn. rewrite Z.land_spec, Z.bits_0.
  destruct (Z_lt_dec n 32).
  - rewrite Z.mul_pow2_bits_low by lia. reflexivity.
  - replace x with (x mod 2^32) by (apply Z.mod_small; lia). rewrite Z.mod_pow2_bits_high by lia. apply andb_false_r.
Qed.
Lemma iterate64_seq c k : cok c -> 0 <= k < 2^48 -> container_iterate64_seq c (k * 65536 mod 2^32) (k * 65536 / 2^32 * 2^32) = map (fun y => k * 65536 + y) (filter (cmem c) (zr 0 65536)).
Proof.
  intros O K. unfold container_iterate64_seq. assert (E : k * 65536 mod 2^32 = Z.shiftl (k mod 65536) 16).
  { rewrite Z.shiftl_mul_pow2 by lia. change (2^32) with (65536 * 65536). rewrite Z.mul_mod_distr_r by lia. reflexivity. }
  pose proof (Z.div_mod (k * 65536) (2^32) ltac:(lia)) as DM. pose proof (Z.mod_pos_bound k 65536 ltac:(lia)) as MB. rewrite E in *. rewrite RQuery.container_iterate_celems by auto. rewrite Z.shiftl_mul_pow2 in * by lia.
  unfold RQuery.celems, vals. rewrite map_map. apply map_ext_in. intros y I. apply filter_In in I as (I & _). apply zr_In in I. rewrite lor_high by lia. lia.
Qed.
Lemma iterate_fold {A} (f : A -> Z -> A * bool) r P t : forall lo s, blocks P lo t -> gets r t ->
  efold (fun key leaf (p : A * bool) =>
    do c <- get_container r leaf;
    let high48 := combine_key key 0 in
    let high32 := high48 / 2^32 * 2^32 in
    let low32 := high48 mod 2^32 in
    let q := RQuery.iter_seq f (container_iterate64_seq c low32 high32) (fst p) in
    Some (q, snd q)) t (s, true) = Some (RQuery.iter_seq f (from P (lo * 65536)) s).
Proof.
  induction t as [|x t IH]; intros lo s B G; inversion B as [? L0 Z0|? ? ? L0 K Z0 RX B']; subst; cbn [efold].
  - rewrite from_nil by auto. reflexivity.
  - apply gets_cons in G as (G & G'). rewrite G. cbn [obind]. cbv zeta. cbn [fst]. pose proof (key6_range _ K) as KR. rewrite combine_kv, Z.add_0_r. rewrite iterate64_seq by (auto; apply RX).
    rewrite (from_gap P lo (kv (e_key x))) by (auto; lia). pose proof (from_block P (kv (e_key x)) (e_c x) 0 ltac:(lia) RX ltac:(lia)) as FB. rewrite Z.add_0_r in FB. rewrite FB. rewrite RQuery.iter_seq_app.
    destruct (RQuery.iter_seq f _ s) as [s1 []]; cbn [snd negb]; auto.
Qed.
Lemma roaring64_bitmap_iterate_spec {A} (f : A -> Z -> A * bool) r P s : den r P -> roaring64_bitmap_iterate f r s = Some (RQuery.iter_seq f (from P 0) s).
Proof.
  intros D. apply den_Lx in D as (xs & H & L). unfold roaring64_bitmap_iterate. rewrite (each_of_efold _ _ xs) by auto. apply (iterate_fold f r P xs 0 s (Lx_blocks0 _ _ L) (R_gets r [] xs H)).
Qed.

(** ** Iterators *)
Definition least (P : Z -> bool) (lo : Z) (o : option Z) : Prop :=
  match o with Some w => lo <= w < 2^64 /\ P w = true /\ forall u, lo <= u < w -> P u = false | None => forall u, lo <= u < 2^64 -> P u = false end.
Definition greatest (P : Z -> bool) (hi : Z) (o : option Z) : Prop :=
  match o with Some w => 0 <= w < hi /\ P w = true /\ forall u, w < u < hi -> P u = false | None => forall u, 0 <= u < hi -> P u = false end.
Definition jin (r : r64) (P : Z -> bool) (j : iter64) (l : list ent) (x : ent) (t : list ent) (v : Z) : Prop :=
  R r (l ++ x :: t) /\ Lx (l ++ x :: t) P /\ at_ (rt r) r (j_it j) l (x :: t) /\ j_high j = kv (e_key x) * 65536 /\ j_value j = v /\ j_has j = true /\
  exists y, v = kv (e_key x) * 65536 + y /\ IterP.cat (e_c x) (j_ci j) y.
(** the iterator [j] is at the member [v], or past one of the ends; [s] is its direction flag *)
Definition jat (r : r64) (P : Z -> bool) (j : iter64) (p : option Z) (s : option bool) : Prop :=
  j_sat j = s /\ match p with
  | Some v => exists l x t, jin r P j l x t v
  | None => exists xs, R r xs /\ Lx xs P /\ at_ (rt r) r (j_it j) xs [] /\ j_has j = false
  end.
Lemma jat_den r P j p s : jat r P j p s -> den r P.
Proof. intros (_ & H). destruct p as [v|]; [destruct H as (l & x & t & H & L & _)|destruct H as (xs & H & L & _)]; eapply den_R; eauto. Qed.
Lemma at_prev (Q : Z -> Prop) r it l x t : Q (a_root (r_art r)) -> at_ Q r it l (x :: t) -> exists it',
  (l = [] /\ art_iterator_prev (r_art r) it = Some (it', false) /\ at_ Q r it' (x :: t) []) \/
  (exists l0 x0, l = l0 ++ [x0] /\ art_iterator_prev (r_art r) it = Some (it', true) /\ at_ Q r it' l0 (x0 :: x :: t)).
Proof.
  intros HQ H. destruct (ipos_prev Q _ _ _ _ _ HQ H) as (it' & [(E & EP & IE)|(l0 & e0 & E & EP & IP)]); exists it'.
  - left. apply map_eq_nil in E. split; auto. split; auto. destruct H as [(_ & _ & F & _)|(t0 & Tt & IP)]; [discriminate|]. right. exists t0. split; auto. subst l. apply itpos_flat in IP. exact (conj IP IE).
  - right. change (l0 ++ [e0]) with (l0 ++ [e0]) in E. apply map_split in E as (l1 & t1 & -> & -> & E). destruct t1 as [|x0 [|]]; try discriminate. cbn [map] in E. assert (E0 : efl x0 = e0) by congruence. subst e0. exists l1, x0. auto.
Qed.
Lemma jin_block r P j l x t v : jin r P j l x t v -> key6 (e_key x) /\ 0 <= kv (e_key x) < 2^48 /\ rep (e_c x) (at_key P (kv (e_key x))) /\ blocks P (kv (e_key x) + 1) t /\
  leaf_val (r_art r) (i_val (j_it j)) = Some (eval x) /\ get_container r (eval x) = Some (e_c x) /\ i_val (j_it j) <> 0 /\ P v = true /\ kv (e_key x) * 65536 <= v < (kv (e_key x) + 1) * 65536.
Proof.
  intros (H & L & A & EH & EV & _ & y & Y & C). pose proof (R_key _ _ x H (in_elt _ _ _)) as K. pose proof (key6_range _ K) as KR. pose proof (Lx_at _ _ _ _ L) as RX.
  destruct (at_val _ _ _ _ _ _ A) as (E1 & _ & NZ). split; auto. split; [lia|]. split; auto. split.
  - apply (Lx_blocks P t (l ++ [x])); [now rewrite <- app_assoc|lia|eapply esplit_next; eauto].
  - rewrite E1. split; [eapply R_val; eauto; apply in_elt|]. split; [eapply R_get; eauto; apply in_elt|]. split; auto. destruct C as (C1 & C2 & _). split; [|lia]. rewrite Y. rewrite (proj2 RX) in C2 by auto. exact C2.
Qed.
Lemma init_first_spec r P it ci hi va ha s l x t : R r (l ++ x :: t) -> Lx (l ++ x :: t) P -> at_ (rt r) r it l (x :: t) -> exists j w, init_at_leaf_first r (IT64 it ci hi va ha s) = Some (j, true) /\
  j_sat j = s /\ jin r P j l x t w /\ forall u, kv (e_key x) * 65536 <= u < w -> P u = false.
Proof.
  intros H L A. unfold init_at_leaf_first, init_at_leaf. cbn [j_it j_sat]. destruct (at_val _ _ _ _ _ _ A) as (EV & EK & NZ). rewrite EV, EK, (R_val _ _ x H) by apply in_elt. cbn [obind]. rewrite (R_get _ _ x H) by apply in_elt. cbn [obind].
  pose proof (Lx_at _ _ _ _ L) as (O & M). destruct (IterP.cinit (e_c x) O) as (i & y & -> & C & F). cbn [obind]. rewrite combine_kv, Z.add_0_r. eexists _, _. split; [reflexivity|]. split; auto. split.
  - unfold jin. cbn [j_it j_high j_value j_has j_ci]. split; auto. split; auto. split; auto. split; auto. split; [reflexivity|]. split; auto. exists y. auto.
  - intros u U. destruct C as (C & _). specialize (F (u - kv (e_key x) * 65536) ltac:(lia)). rewrite M in F by lia. unfold at_key in F. now replace (kv (e_key x) * 65536 + (u - kv (e_key x) * 65536)) with u in F by lia.
Qed.
Lemma init_last_spec r P it ci hi va ha s l x t : R r (l ++ x :: t) -> Lx (l ++ x :: t) P -> at_ (rt r) r it l (x :: t) -> exists j w, init_at_leaf_last r (IT64 it ci hi va ha s) = Some (j, true) /\
  j_sat j = s /\ jin r P j l x t w /\ forall u, w < u < (kv (e_key x) + 1) * 65536 -> P u = false.
Proof.
  intros H L A. unfold init_at_leaf_last, init_at_leaf. cbn [j_it j_sat]. destruct (at_val _ _ _ _ _ _ A) as (EV & EK & NZ). rewrite EV, EK, (R_val _ _ x H) by apply in_elt. cbn [obind]. rewrite (R_get _ _ x H) by apply in_elt. cbn [obind].
  pose proof (Lx_at _ _ _ _ L) as (O & M). destruct (IterP.cinit_last (e_c x) O) as (i & y & -> & C & F). cbn [obind]. rewrite combine_kv, Z.add_0_r. eexists _, _. split; [reflexivity|]. split; auto. split.
  - unfold jin. cbn [j_it j_high j_value j_has j_ci]. split; auto. split; auto. split; auto. split; auto. split; [reflexivity|]. split; auto. exists y. auto.
  - intros u U. destruct C as (C & _). specialize (F (u - kv (e_key x) * 65536) ltac:(lia)). rewrite M in F by lia. unfold at_key in F. now replace (kv (e_key x) * 65536 + (u - kv (e_key x) * 65536)) with u in F by lia.
Qed.
(** the first member of the remaining entries *)
Lemma init_rest r P it ci hi va ha s l t lo : R r (l ++ t) -> Lx (l ++ t) P -> at_ (rt r) r it l t -> blocks P lo t -> t <> [] -> exists j w, init_at_leaf_first r (IT64 it ci hi va ha s) = Some (j, true) /\
  least P (lo * 65536) (Some w) /\ jat r P j (Some w) s.
Proof.
  intros H L A B N. destruct t as [|x t]; [congruence|]. inversion B as [|? ? ? L0 K Z0 RX B']; subst. destruct (init_first_spec r P it ci hi va ha s l x t H L A) as (j & w & E & S & J & G). exists j, w. split; auto.
  pose proof (jin_block _ _ _ _ _ _ _ J) as (_ & KR & _ & _ & _ & _ & _ & T & W). split; [|split; [auto|exists l, x, t; auto]]. split; [lia|]. split; auto. intros u U. destruct (Z_lt_dec u (kv (e_key x) * 65536)); [apply Z0; lia|apply G; lia].
Qed.
Lemma init_at_first r P j : den r P -> exists j1 (o : option Z), iterator_init_at r j true = Some j1 /\ least P 0 o /\ j_has j1 = (if o then true else false) /\ jat r P j1 o (if o then j_sat j else Some true).
Proof.
  intros D. apply den_Lx in D as (xs & H & L). unfold iterator_init_at. destruct (at_first r xs H) as (it & -> & A). cbn [obind]. cbv zeta. destruct xs as [|x t].
  - rewrite (at_end _ _ _ _ A). cbn [Z.eqb negb]. eexists _, None. split; [reflexivity|]. pose proof (Lx_blocks0 _ _ L) as B. inversion B as [? ? Z0|]; subst. split; [exact Z0|]. split; auto. split; auto. exists []. auto.
  - destruct (at_val _ _ _ _ _ _ A) as (EV & _ & NZ). rewrite EV. destruct (Z.eqb_spec (e_lf x) 0); [tauto|]. cbn [negb].
    destruct (init_rest r P it (j_ci j) (j_high j) (j_value j) true (j_sat j) [] (x :: t) 0 H L A (Lx_blocks0 _ _ L) ltac:(discriminate)) as (j1 & w & -> & LE & J). cbn [obind]. exists j1, (Some w). split; auto. split; auto. split; auto. destruct J as (_ & ? & ? & ? & J). apply J.
Qed.
Lemma init_at_last r P j : den r P -> exists j1 (o : option Z), iterator_init_at r j false = Some j1 /\ greatest P (2^64) o /\ j_has j1 = (if o then true else false) /\ jat r P j1 o (if o then j_sat j else Some false).
Proof.
  intros D. apply den_Lx in D as (xs & H & L). unfold iterator_init_at. destruct (at_last r xs H) as (it & -> & [(-> & A)|(l & x & -> & A)]); cbn [obind]; cbv zeta.
  - rewrite (at_end _ _ _ _ A). cbn [Z.eqb negb]. eexists _, None. split; [reflexivity|]. pose proof (Lx_blocks0 _ _ L) as B. inversion B as [? ? Z0|]; subst. split; [intros u U; apply Z0; lia|]. split; auto. split; auto. exists []. auto.
  - destruct (at_val _ _ _ _ _ _ A) as (EV & _ & NZ). rewrite EV. destruct (Z.eqb_spec (e_lf x) 0); [tauto|]. cbn [negb].
    destruct (init_last_spec r P it (j_ci j) (j_high j) (j_value j) true (j_sat j) l x [] H L A) as (j1 & w & -> & S & J & G). cbn [obind]. exists j1, (Some w). split; auto.
    pose proof (jin_block _ _ _ _ _ _ _ J) as (_ & KR & _ & B & _ & _ & _ & T & W). inversion B as [? ? Z0|]; subst. split.
    + split; [lia|]. split; auto. intros u U. destruct (Z_lt_dec u ((kv (e_key x) + 1) * 65536)); [apply G; lia|apply Z0; lia].
    + split; [apply J|]. split; auto. exists l, x, []. auto.
Qed.
Lemma value_low h y : 0 <= y < 65536 -> (h * 65536 + y) mod 65536 = y.
Proof. intros Y. rewrite Z.add_comm, Z.mod_add, Z.mod_small by lia. reflexivity. Qed.
Lemma cmem_at c P h u : rep c (at_key P h) -> h * 65536 <= u < (h + 1) * 65536 -> cmem c (u - h * 65536) = P u.
Proof. intros (O & M) U. rewrite M by lia. unfold at_key. f_equal. lia. Qed.
Lemma advance_at r P j v s : jat r P j (Some v) s -> exists j1 (o : option Z), roaring64_iterator_advance r j = Some (j1, if o then true else false) /\ least P (v + 1) o /\
  jat r P j1 o (if o then s else Some true).
Proof.
  intros (S & l & x & t & J). pose proof (jin_block _ _ _ _ _ _ _ J) as (K & KR & RX & B & EL & EG & NZ & T & W). destruct J as (H & L & A & EH & EV & HH & y & Y & C). unfold roaring64_iterator_advance. destruct (Z.eqb_spec (i_val (j_it j)) 0); [tauto|].
  rewrite EL. cbn [obind]. rewrite EG. cbn [obind]. rewrite EV, Y, value_low by (destruct C; lia). destruct (IterP.cnext (e_c x) (j_ci j) y (proj1 RX) C) as [(i' & y' & -> & C' & LT & G)|(i' & y' & -> & G)]; cbn [obind].
  - eexists _, (Some (kv (e_key x) * 65536 + y')). rewrite EH. split; [reflexivity|]. destruct C' as (C1 & C2 & C3). split.
    + split; [lia|]. split; [change (at_key P (kv (e_key x)) y' = true); rewrite <- (proj2 RX) by lia; exact C2|]. intros u U. rewrite <- (cmem_at _ _ _ _ RX) by lia. apply G. lia.
    + split; [auto|]. exists l, x, t. unfold jin. cbn [j_it j_high j_value j_has j_ci]. split; auto. split; auto. split; auto. split; auto. split; auto. split; auto. exists y'. split; auto. split; auto.
  - destruct (at_next (rt r) r (j_it j) l x t (rt_root r) A) as (it' & -> & A'). cbn [obind]. cbv zeta. assert (GB : forall u, v < u < (kv (e_key x) + 1) * 65536 -> P u = false) by (intros u U; rewrite <- (cmem_at _ _ _ _ RX) by lia; apply G; lia).
    assert (EL2 : l ++ x :: t = (l ++ [x]) ++ t) by (now rewrite <- app_assoc). rewrite EL2 in H, L. destruct t as [|x' t]; cbn [some].
    + eexists _, None. split; [reflexivity|]. inversion B as [? ? Z0|]; subst. split; [intros u U; destruct (Z_lt_dec u ((kv (e_key x) + 1) * 65536)); [apply GB; lia|apply Z0; lia]|]. split; auto. rewrite app_nil_r in *. exists (l ++ [x]). auto.
    + destruct (init_rest r P it' i' (j_high j) (kv (e_key x) * 65536 + y) (j_has j) (j_sat j) (l ++ [x]) (x' :: t) _ H L A' B ltac:(discriminate)) as (j1 & w & E1 & (W1 & W2 & W3) & J1). rewrite <- EV, E1 in *. subst v.
      rewrite <- Y in E1. exists j1, (Some w). split; [reflexivity|]. split; [|now rewrite <- S]. split; [lia|]. split; auto. intros u U. destruct (Z_lt_dec u ((kv (e_key x) + 1) * 65536)); [apply GB; lia|apply W3; lia].
Qed.
Lemma advance_end r P j s : jat r P j None s -> match s with
  | None => roaring64_iterator_advance r j = None
  | Some true => exists j1, roaring64_iterator_advance r j = Some (j1, false) /\ jat r P j1 None (Some true)
  | Some false => exists j1 (o : option Z), roaring64_iterator_advance r j = Some (j1, if o then true else false) /\ least P 0 o /\ jat r P j1 o (if o then Some false else Some true)
  end.
Proof.
  intros J. pose proof (jat_den _ _ _ _ _ J) as D. destruct J as (S & xs & H & L & A & HF). unfold roaring64_iterator_advance. rewrite (at_end _ _ _ _ A). cbn [Z.eqb]. rewrite S. destruct s as [[]|]; cbn [obind]; auto.
  - eexists. split; [reflexivity|]. split; auto. exists xs. auto.
  - destruct (init_at_first r P j D) as (j1 & o & -> & LE & HO & J). cbn [obind]. exists j1, o. rewrite HO. split; auto. split; auto. destruct o; auto. now rewrite <- S.
Qed.
Lemma Lx_before P l0 x0 x t : Lx ((l0 ++ [x0]) ++ x :: t) P -> forall u, (kv (e_key x0) + 1) * 65536 <= u < kv (e_key x) * 65536 -> P u = false.
Proof.
  intros L. rewrite <- app_assoc in L. cbn [app] in L. pose proof (Lx_at _ _ _ _ L) as RX. assert (K : key6 (e_key x0)) by (destruct L as (_ & F & _); rewrite Forall_forall in F; apply F, in_elt). pose proof (key6_range _ K).
  assert (L2 : Lx ((l0 ++ [x0]) ++ x :: t) P) by (now rewrite <- app_assoc). assert (B : blocks P (kv (e_key x0) + 1) (x :: t)) by (apply (Lx_blocks P (x :: t) (l0 ++ [x0])); auto; [lia|eapply esplit_next; eauto]).
  inversion B; subst; auto.
Qed.
Lemma previous_at r P j v s : jat r P j (Some v) s -> exists j1 (o : option Z), roaring64_iterator_previous r j = Some (j1, if o then true else false) /\ greatest P v o /\
  jat r P j1 o (if o then s else Some false).
Proof.
  intros (S & l & x & t & J). pose proof (jin_block _ _ _ _ _ _ _ J) as (K & KR & RX & B & EL & EG & NZ & T & W). destruct J as (H & L & A & EH & EV & HH & y & Y & C). unfold roaring64_iterator_previous. destruct (Z.eqb_spec (i_val (j_it j)) 0); [tauto|].
  rewrite EL. cbn [obind]. rewrite EG. cbn [obind]. rewrite EV, Y, value_low by (destruct C; lia). destruct (IterP.cprev (e_c x) (j_ci j) y (proj1 RX) C) as [(i' & y' & -> & C' & LT & G)|(i' & y' & -> & G)]; cbn [obind].
  - eexists _, (Some (kv (e_key x) * 65536 + y')). rewrite EH. split; [reflexivity|]. destruct C' as (C1 & C2 & C3). split.
    + split; [lia|]. split; [change (at_key P (kv (e_key x)) y' = true); rewrite <- (proj2 RX) by lia; exact C2|]. intros u U. rewrite <- (cmem_at _ _ _ _ RX) by lia. apply G. lia.
    + split; [auto|]. exists l, x, t. unfold jin. cbn [j_it j_high j_value j_has j_ci]. split; auto. split; auto. split; auto. split; auto. split; auto. split; auto. exists y'. split; auto. split; auto.
  - assert (GB : forall u, kv (e_key x) * 65536 <= u < v -> P u = false) by (intros u U; rewrite <- (cmem_at _ _ _ _ RX) by lia; apply G; lia).
    destruct (at_prev (rt r) r (j_it j) l x t (rt_root r) A) as (it' & [(E & -> & A')|(l0 & x0 & E & -> & A')]); cbn [obind]; cbv zeta; subst l.
    + eexists _, None. split; [reflexivity|]. split; [|split; [auto|exists (x :: t); auto]]. pose proof (Lx_blocks0 _ _ L) as B0. inversion B0 as [|? ? ? ? ? Z0]; subst. intros u U. destruct (Z_lt_dec u (kv (e_key x) * 65536)); [apply Z0; lia|apply GB; lia].
    + pose proof (Lx_before _ _ _ _ _ L) as Z0. rewrite <- app_assoc in H, L. cbn [app] in H, L.
      destruct (init_last_spec r P it' i' (j_high j) v (j_has j) (j_sat j) l0 x0 (x :: t) H L A') as (j1 & w & E1 & S1 & J1 & G1). rewrite <- Y. rewrite E1. pose proof (jin_block _ _ _ _ _ _ _ J1) as (_ & KR0 & _ & B0 & _ & _ & _ & T1 & W1).
      exists j1, (Some w). split; [reflexivity|]. inversion B0 as [|? ? ? LE]; subst. split; [|split; [auto|exists l0, x0, (x :: t); auto]]. split; [lia|]. split; auto. intros u U. destruct (Z_lt_dec u ((kv (e_key x0) + 1) * 65536)); [apply G1; lia|].
      destruct (Z_lt_dec u (kv (e_key x) * 65536)); [apply Z0; lia|apply GB; lia].
Qed.
Lemma previous_end r P j s : jat r P j None s -> match s with
  | None => roaring64_iterator_previous r j = None
  | Some false => exists j1, roaring64_iterator_previous r j = Some (j1, false) /\ jat r P j1 None (Some false)
  | Some true => exists j1 (o : option Z), roaring64_iterator_previous r j = Some (j1, if o then true else false) /\ greatest P (2^64) o /\ jat r P j1 o (if o then Some true else Some false)
  end.
Proof.
  intros J. pose proof (jat_den _ _ _ _ _ J) as D. destruct J as (S & xs & H & L & A & HF). unfold roaring64_iterator_previous. rewrite (at_end _ _ _ _ A). cbn [Z.eqb]. rewrite S. destruct s as [[]|]; cbn [obind negb]; auto.
  - destruct (init_at_last r P j D) as (j1 & o & -> & LE & HO & J). cbn [obind]. exists j1, o. rewrite HO. split; auto. split; auto. destruct o; auto. now rewrite <- S.
  - eexists. split; [reflexivity|]. split; auto. exists xs. auto.
Qed.
(** the part of move_equalorlarger after the entry has been chosen *)
Definition mel_rest (r : r64) (j1 : iter64) (val : Z) : option (iter64 * bool) :=
  if j_high j1 =? val / 65536 * 65536 then
    do v <- leaf_val (r_art r) (i_val (j_it j1));
    do c <- get_container r v;
    do (ok, ci, low) <- Iter.container_iterator_lower_bound c (j_ci j1) (j_value j1 mod 65536) (low16 val);
    if (ok : bool) then Some (IT64 (j_it j1) ci (j_high j1) (j_high j1 + low) true (j_sat j1), true)
    else
      do (it2, more) <- art_iterator_next (r_art r) (j_it j1);
      let j2 := IT64 it2 ci (j_high j1) (j_value j1) (j_has j1) (j_sat j1) in
      if negb more then Some (IT64 it2 ci (j_high j1) (j_value j1) false (Some true), false)
      else init_at_leaf_first r j2
  else init_at_leaf_first r j1.
Lemma mel_rest_spec r P j l x t val : v64 val -> R r (l ++ x :: t) -> Lx (l ++ x :: t) P -> at_ (rt r) r (j_it j) l (x :: t) -> j_high j = kv (e_key x) * 65536 -> blocks P (val / 65536) (x :: t) ->
  exists j1 (o : option Z), mel_rest r j val = Some (j1, if o then true else false) /\ least P val o /\ jat r P j1 o (if o then j_sat j else Some true).
Proof.
  intros V H L A EH B. unfold mel_rest. rewrite EH. inversion B as [|? ? ? L0 K Z0 RX B']; subst. pose proof (key6_range _ K) as KR. pose proof (Z.div_mod val 65536 ltac:(lia)) as DM. pose proof (Z.mod_pos_bound val 65536 ltac:(lia)) as MB. unfold v64 in V.
  destruct (Z.eqb_spec (kv (e_key x) * 65536) (val / 65536 * 65536)) as [E|E].
  - assert (E2 : kv (e_key x) = val / 65536) by lia. destruct (at_val _ _ _ _ _ _ A) as (EV & EK & NZ). rewrite EV, (R_val _ _ x H) by apply in_elt. cbn [obind]. rewrite (R_get _ _ x H) by apply in_elt. cbn [obind].
    unfold low16. destruct (IterP.clower (e_c x) (j_ci j) (j_value j mod 65536) (val mod 65536) (proj1 RX) MB) as [(-> & _ & G)|(i' & y' & -> & C' & LT & G)]; cbn [obind].
    + assert (GB : forall u, val <= u < (kv (e_key x) + 1) * 65536 -> P u = false) by (intros u U; rewrite <- (cmem_at _ _ _ _ RX) by lia; apply G; lia).
      destruct (at_next (rt r) r (j_it j) l x t (rt_root r) A) as (it' & -> & A'). cbn [obind]. cbv zeta. assert (EL2 : l ++ x :: t = (l ++ [x]) ++ t) by (now rewrite <- app_assoc). rewrite EL2 in H, L. destruct t as [|x' t]; cbn [some negb].
      * eexists _, None. split; [reflexivity|]. inversion B' as [? ? Z1|]; subst. split; [intros u U; destruct (Z_lt_dec u ((kv (e_key x) + 1) * 65536)); [apply GB; lia|apply Z1; lia]|]. split; auto. rewrite app_nil_r in *. exists (l ++ [x]). auto.
      * destruct (init_rest r P it' (j_ci j) (kv (e_key x) * 65536) (j_value j) (j_has j) (j_sat j) (l ++ [x]) (x' :: t) _ H L A' B' ltac:(discriminate)) as (j1 & w & -> & (W1 & W2 & W3) & J1).
        exists j1, (Some w). split; [reflexivity|]. split; auto. split; [lia|]. split; auto. intros u U. destruct (Z_lt_dec u ((kv (e_key x) + 1) * 65536)); [apply GB; lia|apply W3; lia].
    + eexists _, (Some (kv (e_key x) * 65536 + y')). split; [reflexivity|]. destruct C' as (C1 & C2 & C3). split.
      * split; [lia|]. split; [change (at_key P (kv (e_key x)) y' = true); rewrite <- (proj2 RX) by lia; exact C2|]. intros u U. rewrite <- (cmem_at _ _ _ _ RX) by lia. apply G. lia.
      * split; [auto|]. exists l, x, t. unfold jin. cbn [j_it j_high j_value j_has j_ci]. split; auto. split; auto. split; auto. split; auto. split; auto. split; auto. exists y'. split; auto. split; auto.
  - assert (LT : val / 65536 + 1 <= kv (e_key x)) by lia. assert (B2 : blocks P (val / 65536) (x :: t)) by auto. destruct j as [it ci hi va ha s]. cbn [j_it j_sat] in *.
    destruct (init_rest r P it ci hi va ha s l (x :: t) _ H L A B2 ltac:(discriminate)) as (j1 & w & -> & (W1 & W2 & W3) & J1). exists j1, (Some w). split; [reflexivity|]. split; auto.
    split; [|split; [auto|intros u U; apply W3; lia]]. split; [|lia]. destruct (Z_lt_dec w (kv (e_key x) * 65536)) as [Q|Q]; [|lia]. rewrite Z0 in W2 by lia. discriminate.
Qed.
Lemma move_equalorlarger_spec r P j p s val : v64 val -> jat r P j p s -> exists j1 (o : option Z), roaring64_iterator_move_equalorlarger r j val = Some (j1, if o then true else false) /\ least P val o /\
  jat r P j1 o (if o then s else Some true).
Proof.
  intros V J. assert (KV := kv_high48 val V). destruct KV as (K & KV). pose proof (Z.div_mod val 65536 ltac:(lia)) as DM. pose proof (Z.mod_pos_bound val 65536 ltac:(lia)) as MB.
  assert (SEEK : forall xs l t, R r xs -> Lx xs P -> at_ (rt r) r (j_it j) l t -> j_sat j = s ->
    exists j1 (o : option Z), (do (j1, found) <- (do (it1, ok) <- art_iterator_lower_bound (r_art r) (j_it j) (high48 val);
       if negb ok then Some (IT64 it1 (j_ci j) (j_high j) (j_value j) false (Some true), false)
       else Some (IT64 it1 (j_ci j) (combine_key (i_key it1) 0) (j_value j) (j_has j) (j_sat j), true));
       if negb found then Some (j1, false) else mel_rest r j1 val) = Some (j1, if o then true else false) /\ least P val o /\ jat r P j1 o (if o then s else Some true)).
  { intros xs l t H L A S. destruct (at_it_lower_bound r xs (j_it j) l t (high48 val) H A K) as (it' & l' & t' & -> & -> & A' & SP). cbn [obind]. rewrite KV in SP. unfold v64 in V.
    assert (B : blocks P (val / 65536) t') by (apply (Lx_blocks P t' l'); auto; lia). destruct t' as [|x t']; cbn [some negb obind].
    - eexists _, None. split; [reflexivity|]. inversion B as [? ? Z0|]; subst. split; [intros u U; apply Z0; lia|]. split; auto. rewrite app_nil_r in *. exists l'. auto.
    - destruct (at_val _ _ _ _ _ _ A') as (_ & EK & _). rewrite EK, combine_kv, Z.add_0_r. destruct (mel_rest_spec r P (IT64 it' (j_ci j) (kv (e_key x) * 65536) (j_value j) (j_has j) (j_sat j)) l' x t' val V H L A' eq_refl B) as (j1 & o & E & X).
      cbn [j_sat] in X. rewrite S in *. eauto. }
  unfold roaring64_iterator_move_equalorlarger. destruct J as (S & J). destruct p as [v|].
  - destruct J as (l & x & t & J). pose proof (jin_block _ _ _ _ _ _ _ J) as (Kx & KR & RX & B & EL & EG & NZ & T & W). destruct J as (H & L & A & EH & EV & HH & y & Y & C). rewrite HH in SEEK |- *. cbn [negb orb]. destruct (Z.eqb_spec (j_high j) (val / 65536 * 65536)) as [E|E].
    + cbn [negb obind]. assert (E2 : kv (e_key x) = val / 65536) by lia. rewrite <- S. assert (B2 : blocks P (val / 65536) (x :: t)) by (rewrite <- E2; constructor; auto; lia). exact (mel_rest_spec r P j l x t val V H L A EH B2).
    + cbn [negb]. exact (SEEK _ l (x :: t) H L A S).
  - destruct J as (xs & H & L & A & HF). rewrite HF in SEEK |- *. cbn [negb orb]. exact (SEEK xs xs [] H L A S).
Qed.

(** ** Reading many values *)
Lemma len_cnt P a b : zlen (filter P (zr a b)) = cnt P a b.
Proof. reflexivity. Qed.
Lemma read_spec r P : forall t l x fuel j v count, (S (S (length t)) <= fuel)%nat -> 0 <= count < 2^64 -> jin r P j l x t v -> exists j1 out rest, iterator_read64 fuel r j count = Some (j1, out) /\ from P v = out ++ rest /\ zlen out <= count /\
  match rest with [] => jat r P j1 None (j_sat j) | w :: _ => zlen out = count /\ jat r P j1 (Some w) (j_sat j) end.
Proof.
  induction t as [|x' t IH]; intros l x fuel j v count F HC J; (destruct fuel as [|fuel]; [cbn [length] in F; lia|]); cbn [iterator_read64]; pose proof (jin_block _ _ _ _ _ _ _ J) as (Kx & KR & RX & B & EL & EG & NZ & T & W);
    (destruct (Z.ltb_spec 0 count) as [Q|Q]; [|rewrite andb_false_r; eexists _, [], (from P v); split; [reflexivity|]; split; [reflexivity|]; rewrite from_at by (auto; lia); change (zlen (@nil Z)) with 0; split; [lia|]; split; [lia|]; split; eauto]);
    pose proof J as (H & L & A & EH & EV & HH & y & Y & C); rewrite HH; cbn [andb]; rewrite EL; cbn [obind]; rewrite EG; cbn [obind]; rewrite EV, Y, value_low by (destruct C; lia);
    destruct (IterP.cread (e_c x) (j_ci j) y (Z.min count (2^32 - 1)) (proj1 RX) C ltac:(lia)) as (b & i' & v' & out & rest & -> & FE & M); cbn [obind]; rewrite EH;
    assert (FB := from_block P (kv (e_key x)) (e_c x) y ltac:(lia) RX ltac:(destruct C; lia)); rewrite FE, map_app in FB;
    assert (LO : zlen out <= 65536) by (assert (X : zlen (filter (cmem (e_c x)) (zr y 65536)) <= 65536) by (rewrite len_cnt; pose proof (cnt_bound (cmem (e_c x)) y 65536 ltac:(destruct C; lia)); destruct C; lia); rewrite FE, zlen_app in X; pose proof (zlen_nonneg rest); lia);
    cbv zeta; (destruct rest as [|w rest]; [destruct M as (-> & M)|destruct M as (-> & M1 & -> & M3)]).
  - destruct (at_next (rt r) r (j_it j) l x [] (rt_root r) A) as (it' & -> & A'). cbn [obind some]. destruct fuel as [|fuel]; [cbn [length] in F; lia|]. cbn [iterator_read64 j_has andb obind]. eexists _, _, []. split; [reflexivity|].
    cbn [map] in FB. rewrite !app_nil_r in *. inversion B as [? ? Z0|]; subst. rewrite FB, from_nil by auto. rewrite app_nil_r. split; auto. rewrite zlen_map. split; [lia|]. split; [auto|]. exists (l ++ [x]). auto.
  - assert (EM : Z.min count (2^32 - 1) = count) by lia. rewrite M1, EM, Z.eqb_refl. eexists _, _, _. split; [reflexivity|]. split; [rewrite FB, <- app_assoc; cbn [map app]; reflexivity|]. rewrite zlen_map. split; [lia|]. split; [lia|]. split; [auto|].
    exists l, x, []. unfold jin. cbn [j_it j_high j_value j_has j_ci]. split; auto. split; auto. split; auto. split; auto. split; auto. split; auto. exists w. auto.
  - destruct (at_next (rt r) r (j_it j) l x (x' :: t) (rt_root r) A) as (it' & -> & A'). cbn [obind some]. assert (EL2 : l ++ x :: x' :: t = (l ++ [x]) ++ x' :: t) by (now rewrite <- app_assoc). rewrite EL2 in H, L.
    destruct (init_first_spec r P it' i' (kv (e_key x) * 65536) (kv (e_key x) * 65536 + y) true (j_sat j) (l ++ [x]) x' t H L A') as (j1 & w & -> & S1 & J1 & G1). cbn [obind].
    pose proof (zlen_nonneg out). destruct (IH _ _ fuel j1 w (count - zlen out) ltac:(cbn [length] in F; lia) ltac:(lia) J1) as (j2 & out2 & rest2 & -> & F2 & L2 & M2). cbn [obind]. eexists _, _, rest2. split; [reflexivity|].
    cbn [map] in FB. rewrite app_nil_r in FB. inversion B as [|? ? ? LE K' Z0 RX' B']; subst. pose proof (jin_block _ _ _ _ _ _ _ J1) as (_ & KR1 & _ & _ & _ & _ & _ & T1 & W1).
    rewrite FB, (from_skip P _ w), F2, app_assoc; [|lia|intros u U; destruct (Z_lt_dec u (kv (e_key x') * 65536)); [apply Z0; lia|apply G1; lia]]. split; auto. rewrite zlen_app, zlen_map. split; [lia|]. rewrite S1 in M2. destruct rest2 as [|w2 rest2]; auto. destruct M2 as (M2 & J2). split; [lia|auto].
  - assert (EM : Z.min count (2^32 - 1) = count) by lia. rewrite M1, EM, Z.eqb_refl. eexists _, _, _. split; [reflexivity|]. split; [rewrite FB, <- app_assoc; cbn [map app]; reflexivity|]. rewrite zlen_map. split; [lia|]. split; [lia|]. split; [auto|].
    exists l, x, (x' :: t). unfold jin. cbn [j_it j_high j_value j_has j_ci]. split; auto. split; auto. split; auto. split; auto. split; auto. split; auto. exists w. auto.
Qed.
Lemma roaring64_iterator_read_at r P j v s count : 0 <= count < 2^64 -> jat r P j (Some v) s -> exists j1 out rest, roaring64_iterator_read r j count = Some (j1, out) /\ from P v = out ++ rest /\ zlen out <= count /\
  match rest with [] => jat r P j1 None s | w :: _ => zlen out = count /\ jat r P j1 (Some w) s end.
Proof.
  intros HC (S & l & x & t & J). unfold roaring64_iterator_read. destruct J as (H & J). pose proof (R_fuel r l (x :: t) H) as F. cbn [length] in F. rewrite <- S. apply (read_spec r P t l x _ j v count); [lia|auto|]. exact (conj H J).
Qed.
Lemma roaring64_iterator_read_end r P j s count : jat r P j None s -> roaring64_iterator_read r j count = Some (j, []).
Proof. intros (S & xs & _ & _ & _ & HF). unfold roaring64_iterator_read. cbn [iterator_read64]. now rewrite HF. Qed.
Lemma roaring64_iterator_create_spec r P : den r P -> exists j (o : option Z), roaring64_iterator_create r = Some j /\ least P 0 o /\ jat r P j o (if o then None else Some true).
Proof. intros D. destruct (init_at_first r P iter64_raw D) as (j & o & E & LE & _ & J). exists j, o. auto. Qed.
Lemma roaring64_iterator_create_last_spec r P : den r P -> exists j (o : option Z), roaring64_iterator_create_last r = Some j /\ greatest P (2^64) o /\ jat r P j o (if o then None else Some false).
Proof. intros D. destruct (init_at_last r P iter64_raw D) as (j & o & E & LE & _ & J). exists j, o. auto. Qed.
Lemma least_from P o : least P 0 o -> from P 0 = match o with Some w => from P w | None => [] end.
Proof. destruct o as [w|]; intros H; [destruct H as (A & B & C); apply from_skip; auto; lia|apply from_nil; exact H]. Qed.
Lemma roaring64_bitmap_to_uint64_array_spec r P : den r P -> cnt P 0 (2^64) < 2^64 -> roaring64_bitmap_to_uint64_array r = Some (from P 0).
Proof.
  intros D HC. unfold roaring64_bitmap_to_uint64_array. destruct (init_at_first r P iter64_raw D) as (j & o & -> & LE & _ & J). cbn [obind]. rewrite (least_from P o LE). destruct o as [w|].
  - destruct (roaring64_iterator_read_at r P j w _ (2^64 - 1) ltac:(lia) J) as (j1 & out & rest & -> & E & LO & M). cbn [obind]. destruct rest as [|u rest]; [rewrite E, app_nil_r; reflexivity|]. exfalso. destruct M as (M & _).
    assert (X : zlen (from P 0) < 2^64) by (unfold from; rewrite len_cnt; exact HC). rewrite (least_from P _ LE), E, zlen_app, zlen_cons in X. pose proof (zlen_nonneg rest). lia.
  - rewrite (roaring64_iterator_read_end r P j _ _ J). reflexivity.
Qed.
Lemma roaring64_bitmap_intersect_with_range_spec r P min max : v64 min -> v64 max -> den r P -> exists b, roaring64_bitmap_intersect_with_range r min max = Some b /\ (b = true <-> exists v, min <= v < max /\ P v = true).
Proof.
  intros V1 V2 D. unfold roaring64_bitmap_intersect_with_range. destruct (Z.leb_spec max min) as [Q|Q].
  - exists false. split; auto. split; [discriminate|]. intros (v & V & _). lia.
  - destruct (init_at_first r P iter64_raw D) as (j & o & -> & _ & _ & J). cbn [obind]. destruct (move_equalorlarger_spec r P j _ _ min V1 J) as (j1 & o1 & -> & LE & J1). cbn [obind]. unfold v64 in *. destruct o1 as [w|]; cbn [negb].
    + destruct J1 as (_ & l & x & t & J1). destruct J1 as (_ & _ & _ & _ & -> & -> & _). cbn [andb]. eexists. split; [reflexivity|]. destruct LE as (L1 & L2 & L3). rewrite Z.ltb_lt. split; [intros LT; exists w; auto with zarith|].
      intros (v & V & T). destruct (Z_lt_dec w max); auto. rewrite L3 in T by lia. discriminate.
    + exists false. split; auto. split; [discriminate|]. intros (v & V & T). rewrite LE in T by lia. discriminate.
Qed.

(** ** The direction flag is not written by read *)
(** an iterator created and read to its end: the next advance reads the flag that was never written *)
Lemma read_then_advance_undefined r P v : den r P -> cnt P 0 (2^64) < 2^64 -> 0 <= v < 2^64 -> P v = true -> exists j j1,
  roaring64_iterator_create r = Some j /\ roaring64_iterator_read r j (2^64 - 1) = Some (j1, from P 0) /\ j_has j1 = false /\ roaring64_iterator_advance r j1 = None /\ roaring64_iterator_previous r j1 = None.
Proof.
  intros D HC V T. destruct (roaring64_iterator_create_spec r P D) as (j & o & EC & LE & J). destruct o as [w|]; [|rewrite LE in T by lia; discriminate T].
  destruct (roaring64_iterator_read_at r P j w _ (2^64 - 1) ltac:(lia) J) as (j1 & out & rest & ER & E & LO & M). rewrite <- (least_from P _ LE) in E. destruct rest as [|u rest].
  - rewrite app_nil_r in E. exists j, j1. rewrite E. split; auto. split; auto. pose proof M as (_ & xs & _ & _ & _ & HF). split; auto. split; [exact (advance_end r P j1 None M)|exact (previous_end r P j1 None M)].
  - exfalso. destruct M as (M & _). assert (X : zlen (from P 0) < 2^64) by (unfold from; rewrite len_cnt; exact HC). rewrite E, zlen_app, zlen_cons in X. pose proof (zlen_nonneg rest). lia.
Qed.
(** an iterator that has been past the front once, then read to its end: the next advance starts over *)
Lemma read_then_advance_wraps r P v : den r P -> cnt P 0 (2^64) < 2^64 -> 0 <= v < 2^64 -> P v = true -> exists j j1 j2 j3 j4 w,
  roaring64_iterator_create r = Some j /\ roaring64_iterator_previous r j = Some (j1, false) /\ roaring64_iterator_advance r j1 = Some (j2, true) /\
  roaring64_iterator_read r j2 (2^64 - 1) = Some (j3, from P 0) /\ j_has j3 = false /\ roaring64_iterator_advance r j3 = Some (j4, true) /\ j_value j4 = w /\ least P 0 (Some w).
Proof.
  intros D HC V T. destruct (roaring64_iterator_create_spec r P D) as (j & o & EC & LE & J). destruct o as [w|]; [|rewrite LE in T by lia; discriminate T].
  destruct (previous_at r P j w _ J) as (j1 & o1 & EP & G1 & J1). destruct o1 as [u|]; [exfalso; destruct G1 as (U & TU & _); destruct LE as (_ & _ & LE); rewrite LE in TU by lia; discriminate|].
  destruct (advance_end r P j1 _ J1) as (j2 & o2 & EA & LE2 & J2). destruct o2 as [w2|]; [|rewrite LE2 in T by lia; discriminate T].
  destruct (roaring64_iterator_read_at r P j2 w2 _ (2^64 - 1) ltac:(lia) J2) as (j3 & out & rest & ER & E & LO & M). rewrite <- (least_from P _ LE2) in E. destruct rest as [|u rest].
  - rewrite app_nil_r in E. destruct (advance_end r P j3 _ M) as (j4 & o4 & EA4 & LE4 & J4). destruct o4 as [w4|]; [|rewrite LE4 in T by lia; discriminate T]. exists j, j1, j2, j3, j4, w4. rewrite E. split; [exact EC|]. split; [exact EP|]. split; [exact EA|]. split; [exact ER|].
    split; [destruct M as (_ & xs & _ & _ & _ & HF); exact HF|]. split; [exact EA4|]. split; [|exact LE4]. destruct J4 as (_ & l & x & t & J4). apply J4.
  - exfalso. destruct M as (M & _). assert (X : zlen (from P 0) < 2^64) by (unfold from; rewrite len_cnt; exact HC). rewrite E, zlen_app, zlen_cons in X. pose proof (zlen_nonneg rest). lia.
Qed.
