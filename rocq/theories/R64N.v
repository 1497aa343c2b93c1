(** R64N: in-place set operations of two 64-bit bitmaps *)
From Verif Require Import Base ArrayUtil BitUtil BitsetC ArrayC RunC RunD Convert MixedI MixedU MixedA MixedN Containers RArray RBinary RPoint.
From Verif Require Import Art ArtT ArtI ArtR R64 R64P R64Q R64K R64C R64R R64B.
Local Opaque zr n48_pairs n256_pairs.

(** ** Updates at a cursor *)
Lemma cur_ext Q r P P' it lo n : cur Q r P it lo n -> (forall v, v64 v -> P v = P' v) -> cur Q r P' it lo n.
Proof. intros (l & t & H & L & A & S & E & B) X. exists l, t. split; auto. split; [eapply Lx_ext; eauto|]. auto. Qed.
Lemma cur_any Q r P it lo n : cur Q r P it lo n -> cur any r P it lo n.
Proof. intros (l & t & H & L & A & S & E & B). exists l, t. split; auto. split; auto. split; [eapply at_any; eauto|]. auto. Qed.
Lemma cur_raise Q r P it lo lo' n : cur Q r P it lo n -> i_val it <> 0 -> lo <= lo' <= kv (i_key it) -> cur Q r P it lo' n.
Proof.
  intros (l & t & H & L & A & S & E & B) NZ LO. destruct t as [|x t]; [exfalso; apply NZ; eapply at_end; eauto|]. destruct (at_val _ _ _ _ _ _ A) as (_ & EK & _). rewrite EK in LO.
  exists l, (x :: t). split; auto. split; auto. split; auto. destruct (esplit_at _ _ _ _ _ L S) as (_ & X). split; [apply X; lia|]. split; auto. pose proof (key6_range _ (R_key _ _ x H (in_elt _ _ _))). lia.
Qed.
Lemma cur_inv Q r P it lo n : cur Q r P it lo n -> i_val it <> 0 -> exists l x t, R r (l ++ x :: t) /\ Lx (l ++ x :: t) P /\ at_ Q r it l (x :: t) /\ i_val it = e_lf x /\ i_key it = e_key x /\ n = S (length t) /\
  esplit (kv (i_key it) + 1) (l ++ [x]) t /\ esplit (kv (i_key it) + 1) l t /\ 0 <= kv (i_key it) + 1 <= 2^48.
Proof.
  intros (l & t & H & L & A & S & E & B) NZ. destruct t as [|x t]; [exfalso; apply NZ; eapply at_end; eauto|]. destruct (at_val _ _ _ _ _ _ A) as (EV & EK & _). exists l, x, t. rewrite EK.
  pose proof (key6_range _ (R_key _ _ x H (in_elt _ _ _))). pose proof (esplit_next _ _ _ _ L) as S1. split; auto. split; auto. split; auto. split; auto. split; auto. split; auto. split; auto. split; [|lia].
  destruct S1 as (S1 & S2). split; auto. intros z I. apply S1, in_app_iff. auto.
Qed.
Lemma replace_next r P it lo n c Pc : cur any r P it lo n -> i_val it <> 0 -> rep c Pc -> exists r1 j b m, replace_container r (i_val it) c = Some r1 /\
  art_iterator_next (r_art r1) it = Some (j, b) /\ cur any r1 (with_key P (kv (i_key it)) Pc) j (kv (i_key it) + 1) m /\ n = S m.
Proof.
  intros C NZ RC. destruct (cur_inv _ _ _ _ _ _ C NZ) as (l & x & t & H & L & A & -> & EK & -> & S1 & S2 & B). destruct (R_replace r l x t c H) as (r1 & E & H1 & _ & TR).
  destruct (at_next any r1 it l (setc x c) t Logic.I (TR any it A)) as (j & EN & AN). exists r1, j, (some t), (length t). split; auto. split; auto. split; auto.
  exists (l ++ [setc x c]), t. rewrite <- app_assoc. cbn [app]. rewrite EK. split; auto. split; [now apply Lx_set|]. split; auto. rewrite EK in *. split; [|auto].
  destruct S1 as (S1 & S3). split; auto. intros z I. apply in_app_or in I as [I|[<-|[]]]; [apply S1, in_app_iff; auto|cbn [setc e_key]; lia].
Qed.
Lemma erase_next r P it lo n : cur any r P it lo n -> i_val it <> 0 -> exists a j vv m, art_iterator_erase (r_art r) it = Some (a, j, Some vv) /\ leaf_raw a (i_val it) = Some vv /\ (exists c, get_container r vv = Some c) /\
  cur any (remove_container (with_art r a) vv) (with_key P (kv (i_key it)) (fun _ => false)) j (kv (i_key it) + 1) m /\ n = S m.
Proof.
  intros C NZ. destruct (cur_inv _ _ _ _ _ _ C NZ) as (l & x & t & H & L & A & -> & EK & -> & S1 & S2 & B). destruct (R_it_erase any r it l x t H A) as (a & j & E & RW & H1 & A1).
  exists a, j, (eval x), (length t). split; auto. split; auto. split; [exists (e_c x); eapply R_get; eauto; apply in_elt|]. split; auto. exists l, t. rewrite EK in *. split; auto. split; [now apply Lx_del|]. split; auto.
Qed.
Lemma store_at_spec r P it lo n c Pc : cur any r P it lo n -> i_val it <> 0 -> erep c Pc -> exists r1 j m, store_at r it c = Some (r1, j) /\ cur any r1 (with_key P (kv (i_key it)) Pc) j (kv (i_key it) + 1) m /\ n = S m.
Proof.
  intros C NZ RC. unfold store_at. destruct (container_nonzero_cardinality c) eqn:NC; cbn [negb].
  - destruct (erep_some _ _ RC NC) as (O & M). destruct (replace_next r P it lo n c Pc C NZ (conj O M)) as (r1 & j & b & m & -> & EN & C1 & EM). cbn [obind]. rewrite EN. cbn [obind]. exists r1, j, m. auto.
  - pose proof (erep_none _ _ RC NC) as Z0. destruct (erase_next r P it lo n C NZ) as (a & j & vv & m & -> & RW & _ & C1 & EM). cbn [obind]. rewrite RW. cbn [obind]. eexists _, j, m. split; [reflexivity|]. split; auto.
    eapply cur_ext; [exact C1|]. intros v _. apply with_key_ext. intros y Y. symmetry. auto.
Qed.
Lemma erase_at64_spec r P it lo n : cur any r P it lo n -> i_val it <> 0 -> exists r1 j m, erase_at64 r it = Some (r1, j) /\ cur any r1 (with_key P (kv (i_key it)) (fun _ => false)) j (kv (i_key it) + 1) m /\ n = S m.
Proof.
  intros C NZ. unfold erase_at64. destruct (erase_next r P it lo n C NZ) as (a & j & vv & m & -> & _ & (c & G) & C1 & EM). cbn [obind]. rewrite G. cbn [obind]. eexists _, j, m. split; [reflexivity|]. auto.
Qed.
Lemma esplit_uniq h (l t l' t' : list ent) : l ++ t = l' ++ t' -> esplit h l t -> esplit h l' t' -> l = l' /\ t = t'.
Proof.
  intros E (A & B) (A' & B'). apply app_eq_app in E as ([|z k] & [(-> & ->)|(-> & ->)]); rewrite ?app_nil_r; auto; exfalso.
  - specialize (A z ltac:(apply in_elt)). specialize (B' z (or_introl eq_refl)). lia.
  - specialize (A' z ltac:(apply in_elt)). specialize (B z (or_introl eq_refl)). lia.
Qed.
Lemma cur_absent Q r P it lo n key : cur Q r P it lo n -> key6 key -> lo <= kv key -> (i_val it <> 0 -> kv key < kv (i_key it)) ->
  exists l t, R r (l ++ t) /\ Lx (l ++ t) P /\ at_ Q r it l t /\ n = length t /\ esplit (kv key) l t /\ ~ In key (map e_key (l ++ t)).
Proof.
  intros (l & t & H & L & A & S & E & B) K LO LT. exists l, t. split; auto. split; auto. split; auto. split; auto.
  assert (S' : esplit (kv key) l t /\ forall x, In x t -> kv key < kv (e_key x)).
  { destruct t as [|x t].
    - split; [|intros x []]. split; [|intros x []]. intros x I. destruct S as (S & _). specialize (S x I). lia.
    - destruct (at_val _ _ _ _ _ _ A) as (EV & EK & NZ). rewrite EV, EK in LT. specialize (LT NZ). destruct (esplit_at _ _ _ _ _ L S) as (_ & X). split; [apply X; lia|].
      apply Lx_after in L as (_ & L). intros z [<-|I]; auto. specialize (L z I). lia. }
  destruct S' as (S1 & S2). split; auto. intros I. apply in_map_iff in I as (x & E1 & I). apply in_app_iff in I as [I|I]; [destruct S1 as (S1 & _); specialize (S1 x I)|specialize (S2 x I)]; rewrite E1 in *; lia.
Qed.
Lemma insert_cur r P it lo n key c Pc : cur any r P it lo n -> key6 key -> lo <= kv key -> (i_val it <> 0 -> kv key < kv (i_key it)) -> rep c Pc ->
  exists r1 leaf a j, add_container r c = (r1, leaf) /\ art_iterator_insert (r_art r1) it key leaf = Some (a, j) /\ cur any (with_art r1 a) (with_key P (kv key) Pc) j (kv key) (S n) /\ i_val j <> 0 /\ i_key j = key.
Proof.
  intros C K LO LT RC. destruct (cur_absent _ _ _ _ _ _ _ C K LO LT) as (l & t & H & L & A & -> & S & NI). destruct (R_add r _ key c H K NI) as (r1 & i & EA & EA2 & G). exists r1, (create_leaf i (typecode c)).
  destruct (arep_iterator_insert any (r_art r) _ it key (create_leaf i (typecode c)) (proj1 H) K) as (a & j & lf & l' & t' & EI & ES & AR & IP); [now rewrite efl_keys|]. exists a, j. split; auto. split; [rewrite EA2; exact EI|].
  apply map_split in ES as (l2 & t2 & ES & -> & ->). pose proof (G a lf l2 t2 ES AR) as H1. pose proof (R_sorted _ _ H1) as SO. rewrite map_app in SO. cbn [map e_key] in SO.
  assert (S2 : esplit (kv key) l2 t2).
  { split; intros z I; destruct (incr_app_lt _ _ _ (kv (e_key z)) SO) as (X & Y); [specialize (X ltac:(now apply (in_map (fun x => kv (e_key x)))))|specialize (Y ltac:(now apply (in_map (fun x => kv (e_key x)))))]; lia. }
  destruct (esplit_uniq _ _ _ _ _ ES S S2) as (-> & ->). assert (AT : at_ any (with_art r1 a) j l2 (Ent key lf i c :: t2)) by exact IP. destruct (at_val _ _ _ _ _ _ AT) as (EV & EK & NZ). split; [|rewrite EV, EK; auto].
  exists l2, (Ent key lf i c :: t2). split; auto. split; [eapply Lx_ins; eauto|]. split; auto. split; [|split; [reflexivity|pose proof (key6_range _ K); lia]].
  destruct S2 as (S2 & S3). split; auto. intros z [<-|I]; [cbn [e_key]; lia|auto].
Qed.

(** ** Sets half way through an in-place operation *)
Definition mix (O P : Z -> bool) (lo : Z) : Z -> bool := fun v => if v <? lo * 65536 then O v else P v.
Lemma mix_gap O P lo lo' v : lo <= lo' -> (forall v, lo * 65536 <= v < lo' * 65536 -> P v = O v) -> mix O P lo v = mix O P lo' v.
Proof. intros L G. unfold mix. destruct (Z.ltb_spec v (lo * 65536)); destruct (Z.ltb_spec v (lo' * 65536)); auto; lia. Qed.
Lemma mix_ge O P lo v : lo * 65536 <= v -> mix O P lo v = P v.
Proof. intros L. unfold mix. now replace (v <? lo * 65536) with false by lia. Qed.
Lemma mix_at O P lo h y : lo <= h -> 0 <= y -> at_key (mix O P lo) h y = at_key P h y.
Proof. intros L Y. unfold at_key. apply mix_ge. lia. Qed.
Lemma mix_step O P h Pc v : (forall y, 0 <= y < 65536 -> Pc y = at_key O h y) -> with_key (mix O P h) h Pc v = mix O P (h + 1) v.
Proof.
  intros E. destruct (Z_lt_dec v (h * 65536)).
  - rewrite with_key_lt by lia. unfold mix. replace (v <? h * 65536) with true by lia. now replace (v <? (h + 1) * 65536) with true by lia.
  - destruct (Z_lt_dec v ((h + 1) * 65536)).
    + rewrite with_key_in by lia. rewrite E by lia. unfold mix, at_key. replace (v <? (h + 1) * 65536) with true by lia. f_equal. lia.
    + rewrite with_key_gt by lia. unfold mix. replace (v <? h * 65536) with false by lia. now replace (v <? (h + 1) * 65536) with false by lia.
Qed.
Lemma mix_end O P v : v64 v -> mix O P (2^48) v = O v.
Proof. unfold v64, mix. intros V. now replace (v <? 2^48 * 65536) with true by lia. Qed.
Lemma mix_0 O P v : v64 v -> mix O P 0 v = P v.
Proof. unfold v64. intros V. apply mix_ge. lia. Qed.
Lemma mix_rep c O P lo h : rep c (at_key (mix O P lo) h) -> lo <= h -> rep c (at_key P h).
Proof. intros H L. eapply rep_ext; [exact H|]. intros y Y. apply mix_at; lia. Qed.
Lemma cur_gap Q r O P it lo lo' lo2 n : cur Q r (mix O P lo) it lo2 n -> lo <= lo' -> (forall v, lo * 65536 <= v < lo' * 65536 -> P v = O v) -> cur Q r (mix O P lo') it lo2 n.
Proof. intros C L G. eapply cur_ext; [exact C|]. intros v _. now apply mix_gap. Qed.
Lemma cur_done Q r O P it lo lo2 n : cur Q r (mix O P lo) it lo2 n -> 0 <= lo <= 2^48 -> (forall v, lo * 65536 <= v < 2^64 -> P v = O v) -> den r O.
Proof.
  intros C L G. apply cur_den in C. eapply den_ext; [exact C|]. intros v V. rewrite (mix_gap O P lo (2^48)); [now apply mix_end|lia|]. intros u U. apply G. lia.
Qed.
Lemma mix_start {A} r1 r2 P1 P2 O (loop : nat -> iter -> iter -> option A) (C : A -> Prop) : den r1 P1 -> den r2 P2 ->
  (forall fuel it1 it2 n1 n2, cur any r1 (mix O P1 0) it1 0 n1 -> cur (rt r2) r2 P2 it2 0 n2 -> (n1 + 2 * n2 < fuel)%nat -> exists s, loop fuel it1 it2 = Some s /\ C s) ->
  exists s, both r1 r2 loop = Some s /\ C s.
Proof.
  intros D1 D2 H. apply (both_start r1 r2 P1 P2 loop C D1 D2). intros fuel it1 it2 n1 n2 C1 C2 F. apply (H fuel it1 it2 n1 n2); auto. eapply cur_ext; [eapply cur_any, C1|]. intros v V. symmetry. now apply mix_0.
Qed.

(** ** Intersection *)
Lemma iand_loop64_spec r2 P1 P2 : let O := fun v => P1 v && P2 v in
  forall fuel r1 it1 it2 lo n1 n2, cur any r1 (mix O P1 lo) it1 lo n1 -> cur (rt r2) r2 P2 it2 lo n2 -> (n1 + 2 * n2 < fuel)%nat ->
  exists r, iand_loop64 fuel r1 r2 it1 it2 = Some r /\ den r O.
Proof.
  intros O. induction fuel as [|f IH]; intros r1 it1 it2 lo n1 n2 C1 C2 F; [lia|]. cbn [iand_loop64]. cbv zeta. pose proof (cur_bound _ _ _ _ _ _ C1) as LB.
  destruct (cur_case _ _ _ _ _ _ C1 Logic.I) as [(E1 & -> & Z1 & W1)|(m1 & c1 & v1 & E1 & NZ1 & K1 & L1 & Z1 & EV1 & EC1 & R1 & _ & W1)].
  { rewrite E1. cbn [Z.eqb]. exists r1. split; auto. eapply cur_done; eauto. intros v V. specialize (Z1 v V). rewrite mix_ge in Z1 by lia. unfold O. now rewrite Z1. }
  destruct (Z.eqb_spec (i_val it1) 0); [tauto|]. apply mix_rep in R1; [|lia].
  assert (G1 : forall v, lo * 65536 <= v < kv (i_key it1) * 65536 -> P1 v = O v) by (intros v V; specialize (Z1 v V); rewrite mix_ge in Z1 by lia; unfold O; now rewrite Z1).
  pose proof (cur_gap _ _ _ _ _ _ (kv (i_key it1)) _ _ (W1 (kv (i_key it1)) ltac:(lia)) ltac:(lia) G1) as C1h.
  destruct (cur_case _ _ _ _ _ _ C2 (rt_root r2)) as [(E2 & -> & Z2 & W2)|(m2 & c2 & v2 & E2 & NZ2 & K2 & L2 & Z2 & EV2 & EC2 & R2 & (j2 & b2 & EN2 & N2) & W2)].
  - rewrite E2. cbn [Z.eqb negb orb andb]. destruct (erase_at64_spec r1 _ it1 _ n1 C1h NZ1) as (r1' & j1 & m & -> & C1' & EM). cbn [obind].
    apply (IH r1' j1 it2 (kv (i_key it1) + 1) m 0%nat); [|apply W2; lia|lia]. eapply cur_ext; [exact C1'|]. intros v _. apply mix_step. intros y Y. unfold at_key, O. rewrite Z2 by lia. now rewrite andb_false_r.
  - destruct (Z.eqb_spec (i_val it2) 0); [tauto|]. cbn [negb orb andb]. destruct (cmp_two _ _ K1 K2) as (-> & ->). destruct (Z.eqb_spec (kv (i_key it1)) (kv (i_key it2))) as [E|NE].
    + rewrite EV1. cbn [obind]. rewrite EC1. cbn [obind]. rewrite EV2. cbn [obind]. rewrite EC2. cbn [obind]. rewrite <- E in R2, N2, L2, Z2. rewrite container_iand_eq.
      destruct (store_at_spec r1 _ it1 _ n1 _ _ C1h NZ1 (erep_and _ _ _ _ R1 R2)) as (r1' & j1 & m & -> & C1' & EM). cbn [obind]. rewrite EN2. cbn [obind].
      apply (IH r1' j1 j2 (kv (i_key it1) + 1) m m2); [|auto|lia]. eapply cur_ext; [exact C1'|]. intros v _. now apply mix_step.
    + destruct (Z.ltb_spec (kv (i_key it1)) (kv (i_key it2))).
      * destruct (erase_at64_spec r1 _ it1 _ n1 C1h NZ1) as (r1' & j1 & m & -> & C1' & EM). cbn [obind].
        apply (IH r1' j1 it2 (kv (i_key it1) + 1) m n2); [|apply W2; lia|lia]. eapply cur_ext; [exact C1'|]. intros v _. apply mix_step. intros y Y. unfold at_key, O. rewrite Z2 by lia. now rewrite andb_false_r.
      * destruct (cur_lower r2 P2 it2 lo n2 (i_key it1) C2 NZ2 K1 ltac:(lia)) as (j & b & m & -> & CJ & LM). cbn [obind]. apply (IH r1 it1 j (kv (i_key it1)) n1 m); auto. lia.
Qed.
Lemma roaring64_bitmap_and_inplace_spec r1 r2 P1 P2 : den r1 P1 -> den r2 P2 -> exists r, roaring64_bitmap_and_inplace false r1 r2 = Some r /\ den r (fun v => P1 v && P2 v).
Proof.
  intros D1 D2. unfold roaring64_bitmap_and_inplace. apply (mix_start r1 r2 P1 P2 (fun v => P1 v && P2 v) (fun f => iand_loop64 f r1 r2) (fun r => den r (fun v => P1 v && P2 v)) D1 D2). intros fuel it1 it2 n1 n2 C1 C2 F.
  apply (iand_loop64_spec r2 P1 P2 fuel r1 it1 it2 0 n1 n2); auto.
Qed.
(** ** Difference *)
Lemma iandnot_loop64_spec r2 P1 P2 : let O := fun v => P1 v && negb (P2 v) in
  forall fuel r1 it1 it2 lo n1 n2, cur any r1 (mix O P1 lo) it1 lo n1 -> cur (rt r2) r2 P2 it2 lo n2 -> (n1 + 2 * n2 < fuel)%nat ->
  exists r, iandnot_loop64 fuel r1 r2 it1 it2 = Some r /\ den r O.
Proof.
  intros O. induction fuel as [|f IH]; intros r1 it1 it2 lo n1 n2 C1 C2 F; [lia|]. cbn [iandnot_loop64]. cbv zeta. pose proof (cur_bound _ _ _ _ _ _ C1) as LB.
  destruct (cur_case _ _ _ _ _ _ C1 Logic.I) as [(E1 & -> & Z1 & W1)|(m1 & c1 & v1 & E1 & NZ1 & K1 & L1 & Z1 & EV1 & EC1 & R1 & (j1 & b1 & EN1 & N1) & W1)].
  { rewrite E1. cbn [Z.eqb]. exists r1. split; auto. eapply cur_done; eauto. intros v V. specialize (Z1 v V). rewrite mix_ge in Z1 by lia. unfold O. now rewrite Z1. }
  destruct (Z.eqb_spec (i_val it1) 0); [tauto|]. apply mix_rep in R1; [|lia].
  assert (G1 : forall v, lo * 65536 <= v < kv (i_key it1) * 65536 -> P1 v = O v) by (intros v V; specialize (Z1 v V); rewrite mix_ge in Z1 by lia; unfold O; now rewrite Z1).
  pose proof (cur_gap _ _ _ _ _ _ (kv (i_key it1)) _ _ (W1 (kv (i_key it1)) ltac:(lia)) ltac:(lia) G1) as C1h.
  assert (SK : (forall v, kv (i_key it1) * 65536 <= v < (kv (i_key it1) + 1) * 65536 -> P2 v = false) -> cur any r1 (mix O P1 (kv (i_key it1) + 1)) j1 (kv (i_key it1) + 1) m1).
  { intros G. apply (cur_gap _ _ _ _ _ lo); auto; [lia|]. intros v V. destruct (Z_lt_dec v (kv (i_key it1) * 65536)); [apply G1; lia|]. unfold O. rewrite G by lia. now rewrite andb_true_r. }
  destruct (cur_case _ _ _ _ _ _ C2 (rt_root r2)) as [(E2 & -> & Z2 & W2)|(m2 & c2 & v2 & E2 & NZ2 & K2 & L2 & Z2 & EV2 & EC2 & R2 & (j2 & b2 & EN2 & N2) & W2)].
  - rewrite E2. cbn [Z.eqb negb orb andb]. rewrite EN1. cbn [obind]. apply (IH r1 j1 it2 (kv (i_key it1) + 1) m1 0%nat); [|apply W2; lia|lia]. apply SK. intros v V. apply Z2. lia.
  - destruct (Z.eqb_spec (i_val it2) 0); [tauto|]. cbn [negb orb andb]. destruct (cmp_two _ _ K1 K2) as (-> & ->). destruct (Z.eqb_spec (kv (i_key it1)) (kv (i_key it2))) as [E|NE].
    + rewrite EV1. cbn [obind]. rewrite EC1. cbn [obind]. rewrite EV2. cbn [obind]. rewrite EC2. cbn [obind]. rewrite <- E in R2, N2, L2, Z2. destruct R1 as (O1 & M1), R2 as (O2 & M2).
      destruct (store_at_spec r1 _ it1 _ n1 _ _ C1h NZ1 (container_iandnot_spec c1 c2 O1 O2)) as (r1' & j & m & -> & C1' & EM). cbn [obind]. rewrite EN2. cbn [obind].
      apply (IH r1' j j2 (kv (i_key it1) + 1) m m2); [|auto|lia]. eapply cur_ext; [exact C1'|]. intros v _. apply mix_step. intros y Y. cbv beta. now rewrite M1, M2.
    + destruct (Z.ltb_spec (kv (i_key it1)) (kv (i_key it2))).
      * rewrite EN1. cbn [obind]. apply (IH r1 j1 it2 (kv (i_key it1) + 1) m1 n2); [|apply W2; lia|lia]. apply SK. intros v V. apply Z2. lia.
      * rewrite EN2. cbn [obind]. apply (IH r1 it1 j2 (kv (i_key it2) + 1) n1 m2); [|auto|lia]. apply (cur_gap _ _ _ _ _ lo); [apply W1; lia|lia|]. intros v V. apply G1. lia.
Qed.
Lemma roaring64_bitmap_andnot_inplace_spec r1 r2 P1 P2 : den r1 P1 -> den r2 P2 -> exists r, roaring64_bitmap_andnot_inplace r1 r2 = Some r /\ den r (fun v => P1 v && negb (P2 v)).
Proof.
  intros D1 D2. unfold roaring64_bitmap_andnot_inplace. apply (mix_start r1 r2 P1 P2 (fun v => P1 v && negb (P2 v)) (fun f => iandnot_loop64 f r1 r2) (fun r => den r (fun v => P1 v && negb (P2 v))) D1 D2). intros fuel it1 it2 n1 n2 C1 C2 F.
  apply (iandnot_loop64_spec r2 P1 P2 fuel r1 it1 it2 0 n1 n2); auto.
Qed.
(** ** Union *)
Lemma ior_loop64_spec cap r2 P1 P2 : let O := fun v => P1 v || P2 v in
  forall fuel r1 it1 it2 lo1 lo n1 n2, cur any r1 (mix O P1 lo) it1 lo1 n1 -> cur (rt r2) r2 P2 it2 lo n2 -> lo1 <= lo -> (n1 + 2 * n2 < fuel)%nat ->
  exists r, ior_loop64 fuel cap r1 r2 it1 it2 = Some r /\ den r O.
Proof.
  intros O. induction fuel as [|f IH]; intros r1 it1 it2 lo1 lo n1 n2 C1 C2 LL F; [lia|]. cbn [ior_loop64]. cbv zeta. pose proof (cur_bound _ _ _ _ _ _ C2) as LB. pose proof (cur_bound _ _ _ _ _ _ C1) as LB1.
  assert (INS : forall c2 v2 j2 b2 m2 key, key6 key -> i_key it2 = key -> lo <= kv key -> (forall v, lo * 65536 <= v < kv key * 65536 -> P2 v = false) -> leaf_val (r_art r2) (i_val it2) = Some v2 -> get_container r2 v2 = Some c2 ->
    rep c2 (at_key P2 (kv key)) -> art_iterator_next (r_art r2) it2 = Some (j2, b2) -> cur (rt r2) r2 P2 j2 (kv key + 1) m2 -> n2 = S m2 ->
    (i_val it1 <> 0 -> kv key < kv (i_key it1)) -> (forall v, kv key * 65536 <= v < (kv key + 1) * 65536 -> P1 v = false) ->
    exists r, (do v2 <- leaf_val (r_art r2) (i_val it2); do c2 <- get_container r2 v2;
        let '(r1', leaf) := add_container r1 c2 in
        do (a, j1) <- art_iterator_insert (r_art r1') it1 (i_key it2) leaf;
        do (j2, _) <- art_iterator_next (r_art r2) it2;
        ior_loop64 f cap (with_art r1' a) r2 j1 j2) = Some r /\ den r O).
  { intros c2 v2 j2 b2 m2 key K -> LK ZK -> EC RC EN CN -> LT ZP. cbn [obind]. rewrite EC. cbn [obind].
    destruct (insert_cur r1 _ it1 lo1 n1 key c2 (at_key P2 (kv key)) C1 K ltac:(lia) LT RC) as (r1' & leaf & a & j & -> & -> & CI & _). cbn [obind]. rewrite EN. cbn [obind].
    apply (IH (with_art r1' a) j j2 (kv key) (kv key + 1) (S n1) m2); [|auto|lia|lia]. eapply cur_ext; [exact CI|]. intros v _.
    transitivity (with_key (mix O P1 (kv key)) (kv key) (at_key P2 (kv key)) v).
    - unfold with_key. destruct (v / 65536 =? kv key); auto. apply mix_gap; auto. intros u U. unfold O. rewrite ZK by lia. now rewrite orb_false_r.
    - apply mix_step. intros y Y. unfold at_key, O. now rewrite ZP by lia. }
  destruct (cur_case _ _ _ _ _ _ C1 Logic.I) as [(E1 & -> & Z1 & W1)|(m1 & c1 & v1 & E1 & NZ1 & K1 & L1 & Z1 & EV1 & EC1 & R1 & (j1 & b1 & EN1 & N1) & W1)];
  destruct (cur_case _ _ _ _ _ _ C2 (rt_root r2)) as [(E2 & -> & Z2 & W2)|(m2 & c2 & v2 & E2 & NZ2 & K2 & L2 & Z2 & EV2 & EC2 & R2 & (j2 & b2 & EN2 & N2) & W2)].
  - rewrite E1, E2. cbn [Z.eqb negb orb]. exists r1. split; auto. eapply cur_done; eauto. intros v V. unfold O. rewrite Z2 by lia. now rewrite orb_false_r.
  - destruct (Z.eqb_spec (i_val it2) 0); [tauto|]. rewrite E1. cbn [Z.eqb negb orb andb]. change (0 <? 0) with false. cbv iota.
    apply (INS c2 v2 j2 b2 m2 (i_key it2)); auto; try lia. intros v V. specialize (Z1 v ltac:(lia)). now rewrite mix_ge in Z1 by lia.
  - rewrite E2. destruct (Z.eqb_spec (i_val it1) 0); [tauto|]. cbn [Z.eqb negb orb andb]. rewrite EN1. cbn [obind].
    apply (IH r1 j1 it2 (kv (i_key it1) + 1) (Z.max lo (kv (i_key it1) + 1)) m1 0%nat); [|apply W2; lia|lia|lia]. apply (cur_gap _ _ _ _ _ lo); auto; [lia|]. intros v V. unfold O. rewrite Z2 by lia. now rewrite orb_false_r.
  - destruct (Z.eqb_spec (i_val it1) 0); [tauto|]. destruct (Z.eqb_spec (i_val it2) 0); [tauto|]. cbn [negb orb andb]. destruct (cmp_two _ _ K1 K2) as (-> & ->). destruct (Z.eqb_spec (kv (i_key it1)) (kv (i_key it2))) as [E|NE].
    + rewrite EV1. cbn [obind]. rewrite EC1. cbn [obind]. rewrite EV2. cbn [obind]. rewrite EC2. cbn [obind]. rewrite <- E in R2, N2, L2, Z2. apply mix_rep in R1; [|lia]. destruct R1 as (O1 & M1), R2 as (O2 & M2).
      assert (G1 : forall v, lo * 65536 <= v < kv (i_key it1) * 65536 -> P1 v = O v) by (intros v V; unfold O; rewrite Z2 by lia; now rewrite orb_false_r).
      pose proof (cur_gap _ _ _ _ _ _ (kv (i_key it1)) _ _ C1 ltac:(lia) G1) as C1h.
      destruct (replace_next r1 _ it1 _ n1 _ _ C1h NZ1 (container_ior_spec (cap (i_key it1)) c1 c2 O1 O2)) as (r1' & j & b & m & -> & EN & C1' & EM). cbn [obind]. rewrite EN. cbn [obind]. rewrite EN2. cbn [obind].
      apply (IH r1' j j2 (kv (i_key it1) + 1) (kv (i_key it1) + 1) m m2); [|auto|lia|lia]. eapply cur_ext; [exact C1'|]. intros v _. apply mix_step. intros y Y. cbv beta. now rewrite M1, M2.
    + destruct (Z.ltb_spec (kv (i_key it1)) (kv (i_key it2))).
      * rewrite EN1. cbn [obind]. apply (IH r1 j1 it2 (kv (i_key it1) + 1) (Z.max lo (kv (i_key it1) + 1)) m1 n2); [|apply W2; lia|lia|lia]. apply (cur_gap _ _ _ _ _ lo); auto; [lia|]. intros v V. unfold O. rewrite Z2 by lia. now rewrite orb_false_r.
      * apply (INS c2 v2 j2 b2 m2 (i_key it2)); auto; try lia. intros v V. specialize (Z1 v ltac:(lia)). now rewrite mix_ge in Z1 by lia.
Qed.
Lemma roaring64_bitmap_or_inplace_spec cap r1 r2 P1 P2 : den r1 P1 -> den r2 P2 -> exists r, roaring64_bitmap_or_inplace false cap r1 r2 = Some r /\ den r (fun v => P1 v || P2 v).
Proof.
  intros D1 D2. unfold roaring64_bitmap_or_inplace. apply (mix_start r1 r2 P1 P2 (fun v => P1 v || P2 v) (fun f => ior_loop64 f cap r1 r2) (fun r => den r (fun v => P1 v || P2 v)) D1 D2). intros fuel it1 it2 n1 n2 C1 C2 F.
  apply (ior_loop64_spec cap r2 P1 P2 fuel r1 it1 it2 0 0 n1 n2); auto. lia.
Qed.
(** ** Symmetric difference *)
(** the first bitmap is exhausted: the remaining containers of the second are inserted *)
Lemma ixor_tail r2 P1 P2 : let O := fun v => xorb (P1 v) (P2 v) in
  forall fuel r1 it1 it2 lo n2, den r1 (mix O P1 lo) -> i_val it1 = 0 -> (forall v, lo * 65536 <= v < 2^64 -> P1 v = false) -> cur (rt r2) r2 P2 it2 lo n2 -> (n2 < fuel)%nat ->
  exists r, ixor_loop64 fuel r1 r2 it1 it2 = Some r /\ den r O.
Proof.
  intros O. induction fuel as [|f IH]; intros r1 it1 it2 lo n2 D1 E1 Z1 C2 F; [lia|]. cbn [ixor_loop64]. cbv zeta. pose proof (cur_bound _ _ _ _ _ _ C2) as LB.
  destruct (cur_case _ _ _ _ _ _ C2 (rt_root r2)) as [(E2 & -> & Z2 & W2)|(m2 & c2 & v2 & E2 & NZ2 & K2 & L2 & Z2 & EV2 & EC2 & R2 & (j2 & b2 & EN2 & N2) & W2)].
  - rewrite E1, E2. cbn [Z.eqb negb orb]. exists r1. split; auto. eapply den_ext; [exact D1|]. intros v V. rewrite (mix_gap O P1 lo (2^48)); [now apply mix_end|lia|]. intros u U. unfold O. rewrite Z1, Z2 by lia. reflexivity.
  - destruct (Z.eqb_spec (i_val it2) 0); [tauto|]. rewrite E1. cbn [Z.eqb negb orb andb]. change (0 <? 0) with false. cbv iota. rewrite EV2. cbn [obind]. rewrite EC2. cbn [obind].
    assert (DG : den r1 (mix O P1 (kv (i_key it2)))). { eapply den_ext; [exact D1|]. intros v _. apply mix_gap; [lia|]. intros u U. unfold O. rewrite Z1, Z2 by lia. reflexivity. }
    destruct (den_insert r1 _ (kv (i_key it2)) (i_key it2) c2 (at_key P2 (kv (i_key it2))) DG K2 eq_refl) as (r3 & lf & EI & D3); auto.
    { intros y Y. rewrite mix_at by lia. apply Z1. lia. }
    unfold insert_container in EI. destruct (add_container r1 c2) as [ra leaf]. destruct (art_insert (r_art ra) (i_key it2) leaf) as [[a lf']|]; [|discriminate EI]. cbn [obind] in *. injection EI as <- _. rewrite EN2. cbn [obind].
    apply (IH _ it1 j2 (kv (i_key it2) + 1) m2); auto; [|intros v V; apply Z1; lia|lia]. eapply den_ext; [exact D3|]. intros v _. apply mix_step. intros y Y. unfold at_key, O. rewrite Z1 by lia. now destruct (P2 _).
Qed.
Lemma ixor_loop64_spec r2 P1 P2 : let O := fun v => xorb (P1 v) (P2 v) in
  forall fuel r1 it1 it2 lo n1 n2, cur any r1 (mix O P1 lo) it1 lo n1 -> cur (rt r2) r2 P2 it2 lo n2 -> (n1 + 2 * n2 < fuel)%nat ->
  exists r, ixor_loop64 fuel r1 r2 it1 it2 = Some r /\ den r O.
Proof.
  intros O. induction fuel as [|f IH]; intros r1 it1 it2 lo n1 n2 C1 C2 F; [lia|]. pose proof (cur_bound _ _ _ _ _ _ C2) as LB.
  destruct (cur_case _ _ _ _ _ _ C1 Logic.I) as [(E1 & -> & Z1 & W1)|(m1 & c1 & v1 & E1 & NZ1 & K1 & L1 & Z1 & EV1 & EC1 & R1 & (j1 & b1 & EN1 & N1) & W1)].
  { apply (ixor_tail r2 P1 P2 (S f) r1 it1 it2 lo n2); auto; [eapply cur_den; eauto| |lia]. intros v V. specialize (Z1 v V). now rewrite mix_ge in Z1 by lia. }
  cbn [ixor_loop64]. cbv zeta. destruct (Z.eqb_spec (i_val it1) 0); [tauto|]. apply mix_rep in R1; [|lia].
  assert (Z1' : forall v, lo * 65536 <= v < kv (i_key it1) * 65536 -> P1 v = false) by (intros v V; specialize (Z1 v V); now rewrite mix_ge in Z1 by lia).
  destruct (cur_case _ _ _ _ _ _ C2 (rt_root r2)) as [(E2 & -> & Z2 & W2)|(m2 & c2 & v2 & E2 & NZ2 & K2 & L2 & Z2 & EV2 & EC2 & R2 & (j2 & b2 & EN2 & N2) & W2)].
  - rewrite E2. cbn [Z.eqb negb orb andb]. rewrite EN1. cbn [obind]. apply (IH r1 j1 it2 (kv (i_key it1) + 1) m1 0%nat); [|apply W2; lia|lia]. apply (cur_gap _ _ _ _ _ lo); auto; [lia|]. intros v V. unfold O. rewrite Z2 by lia. now rewrite xorb_false_r.
  - destruct (Z.eqb_spec (i_val it2) 0); [tauto|]. cbn [negb orb andb]. destruct (cmp_two _ _ K1 K2) as (-> & ->). destruct (Z.eqb_spec (kv (i_key it1)) (kv (i_key it2))) as [E|NE].
    + rewrite EV1. cbn [obind]. rewrite EC1. cbn [obind]. rewrite EV2. cbn [obind]. rewrite EC2. cbn [obind]. rewrite <- E in R2, N2, L2, Z2. destruct R1 as (O1 & M1), R2 as (O2 & M2). rewrite container_ixor_eq.
      assert (C1h : cur any r1 (mix O P1 (kv (i_key it1))) it1 (kv (i_key it1)) n1). { apply (cur_gap _ _ _ _ _ lo); [apply W1; lia|lia|]. intros v V. unfold O. rewrite Z2 by lia. now rewrite xorb_false_r. }
      destruct (store_at_spec r1 _ it1 _ n1 _ _ C1h NZ1 (container_xor_spec c1 c2 O1 O2)) as (r1' & j & m & -> & C1' & EM). cbn [obind]. rewrite EN2. cbn [obind].
      apply (IH r1' j j2 (kv (i_key it1) + 1) m m2); [|auto|lia]. eapply cur_ext; [exact C1'|]. intros v _. apply mix_step. intros y Y. cbv beta. now rewrite M1, M2.
    + destruct (Z.ltb_spec (kv (i_key it1)) (kv (i_key it2))).
      * rewrite EN1. cbn [obind]. apply (IH r1 j1 it2 (kv (i_key it1) + 1) m1 n2); [|apply W2; lia|lia]. apply (cur_gap _ _ _ _ _ lo); auto; [lia|]. intros v V. unfold O. rewrite Z2 by lia. now rewrite xorb_false_r.
      * rewrite EV2. cbn [obind]. rewrite EC2. cbn [obind].
        assert (C1h : cur any r1 (mix O P1 (kv (i_key it2))) it1 lo n1). { apply (cur_gap _ _ _ _ _ lo); auto; [lia|]. intros v V. unfold O. rewrite Z2 by lia. now rewrite xorb_false_r. }
        destruct (insert_cur r1 _ it1 lo n1 (i_key it2) c2 (at_key P2 (kv (i_key it2))) C1h K2 ltac:(lia) ltac:(lia) R2) as (r1' & leaf & a & j & -> & -> & CI & NJ & KJ). cbn [obind].
        destruct (cur_case _ _ _ _ _ _ CI Logic.I) as [(EJ & _)|(m & _ & _ & EM & _ & _ & _ & _ & _ & _ & _ & (j' & b' & ENJ & CJ) & _)]; [tauto|]. cbn [with_art r_art] in ENJ. rewrite ENJ. cbn [obind]. rewrite EN2. cbn [obind]. rewrite KJ in CJ.
        apply (IH (with_art r1' a) j' j2 (kv (i_key it2) + 1) m m2); [|auto|lia]. eapply cur_ext; [exact CJ|]. intros v _. apply mix_step. intros y Y. unfold at_key, O. rewrite Z1' by lia. now destruct (P2 _).
Qed.
Lemma roaring64_bitmap_xor_inplace_spec r1 r2 P1 P2 : den r1 P1 -> den r2 P2 -> exists r, roaring64_bitmap_xor_inplace false r1 r2 = Some r /\ den r (fun v => xorb (P1 v) (P2 v)).
Proof.
  intros D1 D2. unfold roaring64_bitmap_xor_inplace. apply (mix_start r1 r2 P1 P2 (fun v => xorb (P1 v) (P2 v)) (fun f => ixor_loop64 f r1 r2) (fun r => den r (fun v => xorb (P1 v) (P2 v))) D1 D2). intros fuel it1 it2 n1 n2 C1 C2 F.
  apply (ixor_loop64_spec r2 P1 P2 fuel r1 it1 it2 0 n1 n2); auto.
Qed.
