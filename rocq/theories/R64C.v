(** R64C: counting, order statistics and extrema of the 64-bit bitmap *)
From Verif Require Import Base ArrayUtil BitUtil BitsetC ArrayC RunC RunD Convert MixedI MixedU MixedA MixedN Containers RArray RBinary RPoint.
From Verif Require Import Art ArtT ArtI ArtR R64 R64P R64Q.
Local Opaque zr n48_pairs n256_pairs.

(** ** The entries at or after a key, block by block *)
Inductive blocks (P : Z -> bool) : Z -> list ent -> Prop :=
| bl_nil lo : 0 <= lo <= 2^48 -> (forall v, lo * 65536 <= v < 2^64 -> P v = false) -> blocks P lo []
| bl_cons lo x t : 0 <= lo <= kv (e_key x) -> key6 (e_key x) -> (forall v, lo * 65536 <= v < kv (e_key x) * 65536 -> P v = false) ->
    rep (e_c x) (at_key P (kv (e_key x))) -> blocks P (kv (e_key x) + 1) t -> blocks P lo (x :: t).
Lemma blocks_lo P lo t : blocks P lo t -> 0 <= lo <= 2^48.
Proof. intros [? A|? x ? A B]; auto. pose proof (key6_range _ B). lia. Qed.
Lemma km_out (r : list (Z * container)) k y : ~ In k (map fst r) -> km r k y = false.
Proof. intros N. unfold km. now rewrite look_none. Qed.
Lemma gap_false xs P a b : Lx xs P -> 0 <= a -> b <= 2^48 -> (forall x, In x xs -> a <= kv (e_key x) < b -> False) -> forall v, a * 65536 <= v < b * 65536 -> P v = false.
Proof.
  intros (_ & _ & C) A B N v V. rewrite (v_split v). pose proof (v_split v). pose proof (Z.mod_pos_bound v 65536 ltac:(lia)).
  rewrite <- C by lia. apply km_out. rewrite map_map. intros I. apply in_map_iff in I as (x & E & I). cbn [ekc fst] in E. apply (N x I). lia.
Qed.
Lemma Lx_blocks P t : forall l h, Lx (l ++ t) P -> 0 <= h <= 2^48 -> esplit h l t -> blocks P h t.
Proof.
  induction t as [|x t IH]; intros l h L H (S1 & S2).
  - constructor; auto. intros v V. apply (gap_false (l ++ []) P h (2^48) L); try lia. intros x I. rewrite app_nil_r in I. specialize (S1 x I). lia.
  - assert (K : key6 (e_key x)) by (destruct L as (_ & F & _); rewrite Forall_forall in F; apply F, in_elt). pose proof (key6_range _ K) as KR.
    assert (SP : (forall z, In z l -> kv (e_key z) < kv (e_key x)) /\ forall z, In z t -> kv (e_key x) < kv (e_key z)).
    { destruct L as (I & _). rewrite map_app in I. cbn [map] in I. split; intros z Hz; destruct (incr_app_lt _ _ _ (kv (e_key z)) I) as (A & B); [apply A|apply B]; now apply (in_map (fun x => kv (e_key x))). }
    destruct SP as (B1 & B2). constructor; auto.
    + pose proof (S2 x (or_introl eq_refl)). lia.
    + apply (gap_false _ P h _ L); try lia. intros z I Z1. apply in_app_or in I as [I|[<-|I]]; [specialize (S1 z I)|lia|specialize (B2 z I)]; lia.
    + eapply Lx_at; eauto.
    + apply (IH (l ++ [x])); [now rewrite <- app_assoc|lia|]. split.
      * intros z I. apply in_app_or in I as [I|[<-|[]]]; [specialize (B1 z I)|]; lia.
      * intros z I. specialize (B2 z I). lia.
Qed.
Lemma Lx_blocks0 xs P : Lx xs P -> blocks P 0 xs.
Proof.
  intros L. apply (Lx_blocks P xs []); auto; [lia|]. split; [intros x []|]. intros x I. destruct L as (_ & F & _). rewrite Forall_forall in F. now apply key6_range, F.
Qed.
Definition gets (r : r64) (t : list ent) : Prop := forall x, In x t -> get_container r (eval x) = Some (e_c x).
Lemma R_gets r l t : R r (l ++ t) -> gets r t.
Proof. intros H x I. eapply R_get; [exact H|]. apply in_app_iff. auto. Qed.
Lemma gets_cons r x t : gets r (x :: t) -> get_container r (eval x) = Some (e_c x) /\ gets r t.
Proof. intros G. split; [apply G; now left|]. intros z I. apply G. now right. Qed.
Lemma cnt_at P h a b : cnt (at_key P h) a b = cnt P (h * 65536 + a) (h * 65536 + b).
Proof. rewrite (Z.add_comm _ a), (Z.add_comm _ b), <- cnt_shift. apply cnt_ext. intros x _. unfold at_key. f_equal. lia. Qed.
Lemma cnt_skip P lo h b : 0 <= lo <= h -> (forall v, lo * 65536 <= v < h * 65536 -> P v = false) -> h * 65536 <= b -> cnt P (lo * 65536) b = cnt P (h * 65536) b.
Proof. intros H G B. rewrite (cnt_app P (lo * 65536) (h * 65536) b) by lia. rewrite cnt_none by auto. lia. Qed.
Lemma block_card c P h : rep c (at_key P h) -> container_get_cardinality c = cnt P (h * 65536) ((h + 1) * 65536).
Proof. intros H. rewrite (rep_gcard _ _ H), cnt_at. f_equal; lia. Qed.
Lemma block_rank c P h y : rep c (at_key P h) -> 0 <= y < 65536 -> container_rank c y = cnt P (h * 65536) (h * 65536 + y + 1).
Proof.
  intros (O & M) Y. rewrite container_rank_spec by auto. rewrite (cnt_ext _ (at_key P h)) by (intros; apply M; lia). rewrite cnt_at. f_equal; lia.
Qed.

(** ** Cardinality *)
Lemma card_fold r P t : forall lo n, blocks P lo t -> gets r t -> efold (card_body r) t n = Some (n + cnt P (lo * 65536) (2^64)).
Proof.
  induction t as [|x t IH]; intros lo n B G; inversion B as [? L0 Z0|? ? ? L0 K Z0 RX B']; subst; cbn [efold].
  - rewrite cnt_none by auto. do 2 f_equal. lia.
  - apply gets_cons in G as (G & G'). unfold card_body at 1. rewrite G. cbn [obind negb]. rewrite (IH _ _ B' G'). f_equal.
    pose proof (key6_range _ K). rewrite (block_card _ _ _ RX). rewrite (cnt_skip P lo _ _ L0 Z0) by lia. rewrite (cnt_app P (kv (e_key x) * 65536) ((kv (e_key x) + 1) * 65536) (2^64)) by lia. lia.
Qed.
Lemma roaring64_bitmap_get_cardinality_spec r P : den r P -> roaring64_bitmap_get_cardinality r = Some (cnt P 0 (2^64) mod 2^64).
Proof.
  intros D. apply den_Lx in D as (xs & H & L). unfold roaring64_bitmap_get_cardinality. rewrite (each_of_efold _ _ xs) by auto.
  rewrite (card_fold r P xs 0 0 (Lx_blocks0 _ _ L) (R_gets r [] xs H)). reflexivity.
Qed.
(** ** Rank *)
Lemma cmp_tests k v : key6 k -> v64 v -> (art_compare_keys k (high48 v) <? 0) = (kv k <? v / 65536) /\ (art_compare_keys k (high48 v) =? 0) = (kv k =? v / 65536) /\
  (0 <? art_compare_keys k (high48 v)) = (v / 65536 <? kv k).
Proof.
  intros K V. destruct (cmp_high k v K V) as (A & B & C). repeat split.
  - destruct (Z.ltb_spec (kv k) (v / 65536)); [apply Z.ltb_lt|apply Z.ltb_ge]; lia.
  - destruct (Z.eqb_spec (kv k) (v / 65536)); [apply Z.eqb_eq|apply Z.eqb_neq]; lia.
  - destruct (Z.ltb_spec (v / 65536) (kv k)); [apply Z.ltb_lt|apply Z.ltb_ge]; lia.
Qed.
Lemma rank_fold r P val t : v64 val -> forall lo n, blocks P lo t -> gets r t -> efold (rank_body r val) t n = Some (n + cnt P (lo * 65536) (val + 1)).
Proof.
  intros V. induction t as [|x t IH]; intros lo n B G; inversion B as [? L0 Z0|? ? ? L0 K Z0 RX B']; subst; cbn [efold].
  - rewrite cnt_none by (unfold v64 in V; intros; apply Z0; lia). do 2 f_equal. lia.
  - apply gets_cons in G as (G & G'). unfold rank_body at 1. rewrite G. cbn [obind]. cbv zeta. destruct (cmp_tests _ _ K V) as (-> & -> & _). set (h := kv (e_key x)) in *.
    pose proof (v_split val) as VS. pose proof (low_range val) as LR. unfold low16 in LR.
    destruct (Z.ltb_spec h (val / 65536)) as [LT|GE]; cbn [obind negb].
    + rewrite (IH _ _ B' G'). f_equal. rewrite (block_card _ _ _ RX). rewrite (cnt_skip P lo h _ L0 Z0) by lia. rewrite (cnt_app P (h * 65536) ((h + 1) * 65536) (val + 1)) by lia. lia.
    + destruct (Z.eqb_spec h (val / 65536)) as [E|NE]; cbn [obind negb]; f_equal.
      * rewrite (block_rank _ _ _ _ RX (low_range val)). rewrite (cnt_skip P lo h _ L0 Z0) by lia. do 2 f_equal. unfold low16. lia.
      * rewrite cnt_none by (intros; apply Z0; lia). lia.
Qed.
Lemma roaring64_bitmap_rank_spec r P val : den r P -> v64 val -> roaring64_bitmap_rank r val = Some (cnt P 0 (val + 1) mod 2^64).
Proof.
  intros D V. apply den_Lx in D as (xs & H & L). unfold roaring64_bitmap_rank. rewrite (each_of_efold _ _ xs) by auto.
  rewrite (rank_fold r P val xs V 0 0 (Lx_blocks0 _ _ L) (R_gets r [] xs H)). reflexivity.
Qed.
Lemma get_index_fold r P val t : v64 val -> forall lo n, blocks P lo t -> gets r t -> 0 <= n -> lo <= val / 65536 + 1 ->
  exists s, efold (get_index_body r val) t (inl n) = Some s /\
  (match s with inl _ => None | inr o => o end) = if (lo * 65536 <=? val) && P val then Some (n + cnt P (lo * 65536) val) else None.
Proof.
  intros V. induction t as [|x t IH]; intros lo n B G N HI; inversion B as [? L0 Z0|? ? ? L0 K Z0 RX B']; subst; cbn [efold].
  - exists (inl n). split; auto. destruct (Z.leb_spec (lo * 65536) val); cbn [andb]; auto. rewrite Z0; auto. unfold v64 in V. lia.
  - apply gets_cons in G as (G & G'). unfold get_index_body at 1. rewrite G. cbn [obind]. cbv zeta. destruct (cmp_tests _ _ K V) as (-> & -> & _). set (h := kv (e_key x)) in *.
    pose proof (v_split val) as VS. pose proof (low_range val) as LR. unfold low16 in LR. destruct (Z.ltb_spec h (val / 65536)) as [LT|GE]; cbn [obind negb].
    + destruct (IH _ (n + container_get_cardinality (e_c x)) B' G') as (s & E & R); [rewrite (block_card _ _ _ RX); pose proof (cnt_bound P (h * 65536) ((h + 1) * 65536)); lia|lia|].
      exists s. split; auto. rewrite R. replace ((h + 1) * 65536 <=? val) with true by lia. replace (lo * 65536 <=? val) with true by lia. cbn [andb]. destruct (P val); auto. f_equal.
      rewrite (block_card _ _ _ RX). rewrite (cnt_skip P lo h _ L0 Z0) by lia. rewrite (cnt_app P (h * 65536) ((h + 1) * 65536) val) by lia. lia.
    + destruct (Z.eqb_spec h (val / 65536)) as [E|NE]; cbn [obind negb].
      * rewrite (container_get_index_spec _ _ (proj1 RX) (low_range val)). destruct RX as (O & M). rewrite M by apply low_range. replace (at_key P h (low16 val)) with (P val) by (rewrite E; symmetry; apply at_low).
        replace (lo * 65536 <=? val) with true by lia. cbn [andb]. destruct (P val) eqn:PV.
        -- rewrite (cnt_ext _ (at_key P h)) by (intros y Y; apply M; unfold low16 in Y; lia). pose proof (cnt_bound (at_key P h) 0 (low16 val)). unfold low16 in *.
           replace (cnt (at_key P h) 0 (val mod 65536) <? 0) with false by lia. cbn [obind negb]. eexists. split; [reflexivity|]. cbv beta iota. f_equal. rewrite cnt_at. rewrite (cnt_skip P lo h _ L0 Z0) by lia. do 2 f_equal; lia.
        -- cbn. eexists. split; reflexivity.
      * eexists. split; [reflexivity|]. cbn. destruct (Z.leb_spec (lo * 65536) val); cbn [andb]; auto. rewrite Z0; auto. lia.
Qed.
Lemma roaring64_bitmap_get_index_spec r P val : den r P -> v64 val -> roaring64_bitmap_get_index r val = Some (if P val then Some (cnt P 0 val) else None).
Proof.
  intros D V. apply den_Lx in D as (xs & H & L). unfold roaring64_bitmap_get_index. rewrite (each_of_efold _ _ xs) by auto. pose proof (v64_div val V).
  destruct (get_index_fold r P val xs V 0 0 (Lx_blocks0 _ _ L) (R_gets r [] xs H)) as (s & -> & E); [lia|lia|]. cbn [obind]. replace (0 * 65536 <=? val) with true in E by (unfold v64 in V; lia). cbn [andb] in E.
  destruct s; f_equal; exact E.
Qed.
(** ** Select *)
Lemma select_fold r P rank t : 0 <= rank < 2^64 -> cnt P 0 (2^64) < 2^64 -> forall lo, blocks P lo t -> gets r t -> cnt P 0 (lo * 65536) <= rank ->
  exists s, efold (select_body r rank) t (inl (cnt P 0 (lo * 65536))) = Some s /\
  match s with
  | inl _ | inr None => cnt P 0 (2^64) <= rank
  | inr (Some v) => v64 v /\ P v = true /\ cnt P 0 v = rank
  end.
Proof.
  intros RK TOT. induction t as [|x t IH]; intros lo B G LE; pose proof (blocks_lo _ _ _ B) as LB; inversion B as [? L0 Z0|? ? ? L0 K Z0 RX B']; subst; cbn [efold].
  - eexists. split; [reflexivity|]. cbv beta iota. rewrite (cnt_app P 0 (lo * 65536) (2^64)) by lia. rewrite (cnt_none P (lo * 65536)) by auto. lia.
  - apply gets_cons in G as (G & G'). unfold select_body at 1. rewrite G. cbn [obind]. cbv zeta. set (h := kv (e_key x)) in *. pose proof (key6_range _ K) as KR. fold h in KR.
    assert (E : cnt P 0 (lo * 65536) + container_get_cardinality (e_c x) = cnt P 0 ((h + 1) * 65536)).
    { rewrite (block_card _ _ _ RX). rewrite (cnt_app P 0 (h * 65536) ((h + 1) * 65536)) by lia. rewrite (cnt_app P 0 (lo * 65536) (h * 65536)) by lia. rewrite (cnt_none P (lo * 65536)) by auto. lia. }
    assert (E2 : cnt P 0 (h * 65536) = cnt P 0 (lo * 65536)) by (rewrite (cnt_app P 0 (lo * 65536) (h * 65536)) by lia; rewrite (cnt_none P (lo * 65536)) by auto; lia).
    assert (SM : cnt P 0 ((h + 1) * 65536) <= cnt P 0 (2^64)) by (rewrite (cnt_app P 0 ((h + 1) * 65536) (2^64)) by lia; pose proof (cnt_bound P ((h + 1) * 65536) (2^64)); lia).
    pose proof (cnt_bound P 0 ((h + 1) * 65536) ltac:(lia)). pose proof (cnt_bound P 0 (lo * 65536) ltac:(lia)).
    rewrite Z.mod_small by lia. rewrite E. destruct (Z.ltb_spec rank (cnt P 0 ((h + 1) * 65536))) as [LT|GE].
    + pose proof (container_get_cardinality_spec _ (proj1 RX)) as CC. assert (CB : ccard (e_c x) <= 65536) by (unfold ccard; pose proof (cnt_bound (cmem (e_c x)) 0 65536); lia).
      pose proof (container_select_spec (e_c x) 0 (rank - cnt P 0 (lo * 65536)) (proj1 RX) ltac:(lia) ltac:(lia)) as S.
      assert (F : select_fits (e_c x) 0) by (unfold select_fits; destruct (e_c x); lia). specialize (S F). rewrite Z.add_0_l, <- CC in S. replace (rank - cnt P 0 (lo * 65536) <? container_get_cardinality (e_c x)) with true in S by lia.
      destruct S as (y & Y & ES & M & C). rewrite ES. cbn [obind negb]. eexists. split; [reflexivity|]. cbv beta iota. rewrite combine_kv. fold h. destruct RX as (O & MM).
      split; [now apply v64_kx|]. split; [rewrite MM in M by auto; exact M|]. rewrite (cnt_ext _ (at_key P h)) in C by (intros; apply MM; lia). rewrite cnt_at in C.
      rewrite (cnt_app P 0 (h * 65536) (h * 65536 + y)) by lia. rewrite E2. rewrite Z.add_0_r in C. lia.
    + cbn [obind negb]. apply (IH _ B' G'). fold h. lia.
Qed.
Lemma roaring64_bitmap_select_spec r P rank : den r P -> 0 <= rank < 2^64 -> cnt P 0 (2^64) < 2^64 -> exists o, roaring64_bitmap_select r rank = Some o /\
  match o with None => cnt P 0 (2^64) <= rank | Some v => v64 v /\ P v = true /\ cnt P 0 v = rank end.
Proof.
  intros D RK TOT. apply den_Lx in D as (xs & H & L). unfold roaring64_bitmap_select. rewrite (each_of_efold _ _ xs) by auto. assert (Z0 : cnt P 0 (0 * 65536) = 0) by (apply cnt_nil; lia).
  destruct (select_fold r P rank xs RK TOT 0 (Lx_blocks0 _ _ L) (R_gets r [] xs H)) as (s & E & S); [lia|]. rewrite Z0 in E. rewrite E. cbn [obind]. destruct s as [n|o]; eexists; (split; [reflexivity|]); auto.
Qed.
(** ** Emptiness, extrema *)
Lemma den_empty r P : den r P -> (roaring64_bitmap_is_empty r = true <-> forall v, v64 v -> P v = false).
Proof.
  intros D. apply den_Lx in D as (xs & H & L). unfold roaring64_bitmap_is_empty. rewrite (arep_empty _ _ (proj1 H)). destruct xs as [|x t]; cbn [map some negb].
  - split; auto. intros _ v V. pose proof (Lx_blocks0 _ _ L) as B. inversion B as [? ? Z0|]; subst. apply Z0. unfold v64 in V. lia.
  - split; [discriminate|]. intros Z0. exfalso. pose proof (Lx_at [] x t P L) as RX. destruct L as (_ & F & _). inversion F as [|? ? (K & _) _]; subst. pose proof (key6_range _ K).
    apply rep_cne in RX as (y & Y & T). unfold at_key in T. rewrite Z0 in T by now apply v64_kx. discriminate.
Qed.
Lemma roaring64_bitmap_minimum_spec r P : den r P -> exists m, roaring64_bitmap_minimum r = Some m /\
  ((m = 2^64 - 1 /\ forall v, v64 v -> P v = false) \/ (v64 m /\ P m = true /\ forall v, v64 v -> P v = true -> m <= v)).
Proof.
  intros D. apply den_Lx in D as (xs & H & L). unfold roaring64_bitmap_minimum. destruct (at_first r xs H) as (it & -> & P0). cbn [obind]. pose proof (Lx_blocks0 _ _ L) as B. destruct xs as [|x t].
  - apply at_end in P0. rewrite P0. cbn. eexists. split; [reflexivity|]. left. split; auto. intros v V. inversion B as [? ? Z0|]; subst. apply Z0. unfold v64 in V. lia.
  - apply at_val in P0 as (-> & -> & NZ). destruct (Z.eqb_spec (e_lf x) 0); [tauto|]. rewrite (R_val _ _ x H) by now left. cbn [obind]. rewrite (R_get _ _ x H) by now left. cbn [obind].
    inversion B as [|? ? ? L0 K Z0 RX B']; subst. pose proof (key6_range _ K). destruct (container_minimum_spec _ (proj1 RX)) as (M1 & M2 & M3). rewrite combine_kv. set (m := container_minimum (e_c x)) in *. destruct RX as (O & MM).
    eexists. split; [reflexivity|]. right. split; [now apply v64_kx|]. split; [rewrite MM in M2; auto|]. intros v V T. destruct (Z_lt_dec v (kv (e_key x) * 65536)) as [LT|]; [rewrite Z0 in T by (unfold v64 in V; lia); discriminate|].
    destruct (Z_lt_dec v (kv (e_key x) * 65536 + 65536)); [|lia]. specialize (M3 (v - kv (e_key x) * 65536) ltac:(lia)). rewrite MM in M3 by lia. unfold at_key in M3.
    replace (kv (e_key x) * 65536 + (v - kv (e_key x) * 65536)) with v in M3 by lia. specialize (M3 T). lia.
Qed.
Lemma at_last r xs : R r xs -> exists it, art_init_iterator (r_art r) false = Some it /\
  ((xs = [] /\ at_ (rooted (r_art r)) r it [] []) \/ exists l x, xs = l ++ [x] /\ at_ (rooted (r_art r)) r it l [x]).
Proof.
  intros (A & _). destruct (arep_last _ _ A) as (it & E & [(F & P)|(l & e & F & P)]); exists it; (split; [auto|]).
  - left. apply map_eq_nil in F. auto.
  - right. apply map_split in F as (l' & t' & -> & -> & F). destruct t' as [|x [|]]; try discriminate. cbn [map] in F. injection F as F. subst e. exists l', x. auto.
Qed.
Lemma roaring64_bitmap_maximum_spec r P : den r P -> exists m, roaring64_bitmap_maximum r = Some m /\
  ((m = 0 /\ forall v, v64 v -> P v = false) \/ (v64 m /\ P m = true /\ forall v, v64 v -> P v = true -> v <= m)).
Proof.
  intros D. apply den_Lx in D as (xs & H & L). unfold roaring64_bitmap_maximum. destruct (at_last r xs H) as (it & -> & [(-> & P0)|(l & x & -> & P0)]); cbn [obind].
  - apply at_end in P0. rewrite P0. cbn. eexists. split; [reflexivity|]. left. split; auto. intros v V. pose proof (Lx_blocks0 _ _ L) as B. inversion B as [? ? Z0|]; subst. apply Z0. unfold v64 in V. lia.
  - apply at_val in P0 as (-> & -> & NZ). destruct (Z.eqb_spec (e_lf x) 0); [tauto|]. rewrite (R_val _ _ x H) by apply in_elt. cbn [obind]. rewrite (R_get _ _ x H) by apply in_elt. cbn [obind].
    assert (K : key6 (e_key x)) by (eapply R_key; [exact H|apply in_elt]). pose proof (key6_range _ K).
    assert (B : blocks P (kv (e_key x)) [x]).
    { apply (Lx_blocks P [x] l); auto; [lia|]. split.
      - intros z I. destruct L as (S & _). rewrite map_app in S. apply (incr_app_lt _ _ _ (kv (e_key z)) S). now apply (in_map (fun x => kv (e_key x))).
      - intros z [<-|[]]. lia. }
    inversion B as [|? ? ? L0 K0 Z0 RX B']; subst. inversion B' as [? L1 Z1|]; subst. destruct (container_maximum_spec _ (proj1 RX)) as (M1 & M2 & M3). rewrite combine_kv. set (m := container_maximum (e_c x)) in *. destruct RX as (O & MM).
    eexists. split; [reflexivity|]. right. split; [now apply v64_kx|]. split; [rewrite MM in M2; auto|]. intros v V T. destruct (Z_le_dec ((kv (e_key x) + 1) * 65536) v) as [LT|]; [rewrite Z1 in T by (unfold v64 in V; lia); discriminate|].
    destruct (Z_lt_dec v (kv (e_key x) * 65536)); [lia|]. specialize (M3 (v - kv (e_key x) * 65536) ltac:(lia)). rewrite MM in M3 by lia. unfold at_key in M3.
    replace (kv (e_key x) * 65536 + (v - kv (e_key x) * 65536)) with v in M3 by lia. specialize (M3 T). lia.
Qed.

(** ** Cardinality of a range *)
Lemma range_card_fold r P min max t : v64 min -> v64 max -> min <= max -> forall lo n, blocks P lo t -> gets r t -> min / 65536 <= lo ->
  efold (range_card_body r min max) t n = Some (n + cnt P (Z.max min (lo * 65536)) (max + 1)).
Proof.
  intros V1 V2 LE. pose proof (v_split min) as VS1. pose proof (low_range min) as LR1. pose proof (v_split max) as VS2. pose proof (low_range max) as LR2. unfold low16 in LR1, LR2. pose proof (v64_div _ V2) as D2.
  induction t as [|x t IH]; intros lo n B G ML; pose proof (blocks_lo _ _ _ B) as LB; inversion B as [? L0 Z0|? ? ? L0 K Z0 RX B']; subst; cbn [efold].
  - rewrite cnt_none by (unfold v64 in *; intros; apply Z0; lia). do 2 f_equal. lia.
  - apply gets_cons in G as (G & G'). unfold range_card_body at 1. cbv zeta. destruct (cmp_tests _ _ K V2) as (_ & -> & ->). destruct (cmp_tests _ _ K V1) as (_ & -> & _). set (h := kv (e_key x)) in *.
    destruct (Z.ltb_spec (max / 65536) h) as [LT|GE].
    + cbn [obind negb]. rewrite cnt_none by (intros; apply Z0; lia). do 2 f_equal. lia.
    + rewrite G. cbn [obind negb]. rewrite (IH _ _ B' G') by lia. f_equal.
      assert (E1 : (if h =? max / 65536 then n + container_rank (e_c x) (low16 max) else n + container_get_cardinality (e_c x)) = n + cnt P (h * 65536) (Z.min (max + 1) ((h + 1) * 65536))).
      { destruct (Z.eqb_spec h (max / 65536)) as [E|NE].
        - rewrite (block_rank _ _ _ _ RX (low_range max)). do 2 f_equal. unfold low16. lia.
        - rewrite (block_card _ _ _ RX). do 2 f_equal. lia. }
      rewrite E1. clear E1.
      assert (C1 : cnt P (Z.max min (lo * 65536)) (max + 1) = cnt P (Z.max min (h * 65536)) (max + 1)).
      { destruct (Z_le_dec (h * 65536) min).
        - replace (lo * 65536) with (h * 65536); auto. assert (lo = h) by lia. lia.
        - rewrite (cnt_app P (Z.max min (lo * 65536)) (Z.max min (h * 65536)) (max + 1)) by lia. rewrite (cnt_none P (Z.max min (lo * 65536))) by (intros; apply Z0; lia). lia. }
      rewrite C1. clear C1. destruct (Z.eqb_spec h (min / 65536)) as [E|NE]; cbn [andb].
      * replace (if 0 <? low16 min then n + cnt P (h * 65536) (Z.min (max + 1) ((h + 1) * 65536)) - container_rank (e_c x) (low16 min - 1) else n + cnt P (h * 65536) (Z.min (max + 1) ((h + 1) * 65536)))
          with (n + cnt P min (Z.min (max + 1) ((h + 1) * 65536))).
        -- replace (Z.max min (h * 65536)) with min by lia. replace (Z.max min ((h + 1) * 65536)) with ((h + 1) * 65536) by lia.
           destruct (Z_le_dec (max + 1) ((h + 1) * 65536)).
           ++ rewrite (cnt_nil P ((h + 1) * 65536)) by lia. replace (Z.min (max + 1) ((h + 1) * 65536)) with (max + 1) by lia. lia.
           ++ rewrite (cnt_app P min ((h + 1) * 65536) (max + 1)) by lia. replace (Z.min (max + 1) ((h + 1) * 65536)) with ((h + 1) * 65536) by lia. lia.
        -- destruct (Z.ltb_spec 0 (low16 min)) as [NZ|Z1]; unfold low16 in *.
           ++ rewrite (block_rank _ _ _ _ RX) by lia. rewrite (cnt_app P (h * 65536) min) by lia. replace (h * 65536 + (min mod 65536 - 1) + 1) with min by lia. lia.
           ++ replace min with (h * 65536) at 1 by lia. lia.
      * replace (Z.max min (h * 65536)) with (h * 65536) by lia. replace (Z.max min ((h + 1) * 65536)) with ((h + 1) * 65536) by lia.
        destruct (Z_le_dec (max + 1) ((h + 1) * 65536)).
        -- rewrite (cnt_nil P ((h + 1) * 65536)) by lia. replace (Z.min (max + 1) ((h + 1) * 65536)) with (max + 1) by lia. lia.
        -- rewrite (cnt_app P (h * 65536) ((h + 1) * 65536) (max + 1)) by lia. replace (Z.min (max + 1) ((h + 1) * 65536)) with ((h + 1) * 65536) by lia. lia.
Qed.
Lemma R_fuel r l t : R r (l ++ t) -> (length t < fuel64 r)%nat.
Proof. intros H. apply R_len in H. rewrite app_length in H. lia. Qed.
Lemma lower_blocks r P min : den r P -> v64 min -> exists it l t, art_lower_bound (r_art r) (high48 min) = Some it /\ R r (l ++ t) /\ Lx (l ++ t) P /\ at_ any r it l t /\ esplit (min / 65536) l t /\ blocks P (min / 65536) t.
Proof.
  intros D V. apply den_Lx in D as (xs & H & L). destruct (kv_high48 min V) as (K & KE). destruct (at_lower_bound r xs (high48 min) H K) as (it & l & t & E & -> & A & S). rewrite KE in S.
  exists it, l, t. repeat (split; [assumption|]). apply (Lx_blocks P t l); auto. pose proof (v64_div _ V). lia.
Qed.
Lemma roaring64_bitmap_range_closed_cardinality_spec r P min max : den r P -> v64 min -> v64 max -> roaring64_bitmap_range_closed_cardinality r min max = Some (cnt P min (max + 1) mod 2^64).
Proof.
  intros D V1 V2. unfold roaring64_bitmap_range_closed_cardinality. destruct (Z.ltb_spec max min) as [LT|GE]; [rewrite cnt_nil by lia; reflexivity|].
  destruct (lower_blocks r P min D V1) as (it & l & t & -> & H & L & A & S & B). cbn [obind].
  rewrite (each_efold r _ (l ++ t) H t l it) by (auto; eapply R_fuel; eauto). rewrite (range_card_fold r P min max t V1 V2 GE _ 0 B (R_gets _ _ _ H)) by lia. cbn [obind].
  pose proof (v_split min). pose proof (low_range min). unfold low16 in *. replace (Z.max min (min / 65536 * 65536)) with min by lia. reflexivity.
Qed.
Lemma roaring64_bitmap_range_cardinality_spec r P min max : den r P -> v64 min -> v64 max -> roaring64_bitmap_range_cardinality r min max = Some (cnt P min max mod 2^64).
Proof.
  intros D V1 V2. unfold roaring64_bitmap_range_cardinality. destruct (Z.leb_spec max min) as [LE|GT]; [rewrite cnt_nil by lia; reflexivity|].
  rewrite (roaring64_bitmap_range_closed_cardinality_spec r P) by (auto; unfold v64 in *; lia). now replace (max - 1 + 1) with max by lia.
Qed.

(** ** Range membership *)
Definition alltrue (P : Z -> bool) (a b : Z) : Prop := forall v, a <= v < b -> P v = true.
(** what the answer true of contains_range stands for: the values are present up to [e]; and [e] is
    the end of the range, or the rest of the range up to the end of its last block is empty and
    some value lies beyond that block *)
Definition covered (P : Z -> bool) (min max : Z) : Prop := exists e, min < e <= max /\ alltrue P min e /\
  (e = max \/ (e mod 65536 = 0 /\ (forall v, e <= v < ((max - 1) / 65536 + 1) * 65536 -> P v = false) /\
     exists v, ((max - 1) / 65536 + 1) * 65536 <= v < 2^64 /\ P v = true)).
Definition cr_check (c : container) (cmin cmax : Z) : bool := if (cmin =? 0) && (cmax =? 65536) then container_is_full c else container_contains_range c cmin cmax.
Lemma cr_check_spec c P h a b : rep c (at_key P h) -> 0 <= a < b -> b <= 65536 -> (cr_check c a b = true <-> alltrue P (h * 65536 + a) (h * 65536 + b)).
Proof.
  intros (O & M) A B. assert (G : (forall x, a <= x < b -> cmem c x = true) <-> alltrue P (h * 65536 + a) (h * 65536 + b)).
  { split.
    - intros G v V. specialize (G (v - h * 65536) ltac:(lia)). rewrite M in G by lia. unfold at_key in G. now replace (h * 65536 + (v - h * 65536)) with v in G by lia.
    - intros G x X. rewrite M by lia. apply G. lia. }
  rewrite <- G. unfold cr_check. destruct (Z.eqb_spec a 0); destruct (Z.eqb_spec b 65536); cbn [andb]; try (apply container_contains_range_spec; auto).
  subst. now apply container_is_full_spec.
Qed.
Lemma alltrue_app P a b c : alltrue P a b -> alltrue P b c -> alltrue P a c.
Proof. intros A B v V. destruct (Z_lt_dec v b); [apply A|apply B]; lia. Qed.
(** one iteration *)
Lemma contains_range_iter r P min max x prev : v64 min -> v64 max -> min < max -> key6 (e_key x) -> get_container r (eval x) = Some (e_c x) -> rep (e_c x) (at_key P (kv (e_key x))) ->
  min / 65536 <= kv (e_key x) ->
  exists b, contains_range_body r min max (e_key x) (eval x) (inl (prev * 65536)) = Some (
    if (max - 1) / 65536 <? kv (e_key x) then (inr true, false)
    else if 1 <? kv (e_key x) - prev then (inr false, false)
    else if (b : bool) then (inl (kv (e_key x) * 65536), true) else (inr false, false)) /\
  (kv (e_key x) <= (max - 1) / 65536 -> (b = true <-> alltrue P (Z.max min (kv (e_key x) * 65536)) (Z.min max ((kv (e_key x) + 1) * 65536)))).
Proof.
  intros V1 V2 LT K G RX LE. set (h := kv (e_key x)) in *.
  pose proof (v_split min) as VS1. pose proof (low_range min) as LR1. pose proof (v_split max) as VS2. pose proof (low_range max) as LR2. pose proof (v_split (max - 1)) as VS3. pose proof (low_range (max - 1)) as LR3. unfold low16 in LR1, LR2, LR3.
  set (cmin := if h =? min / 65536 then low16 min else 0). set (cmax := if h =? max / 65536 then low16 max else 65536).
  exists (cr_check (e_c x) cmin cmax). split.
  - unfold contains_range_body. cbv zeta. rewrite combine_kv, Z.add_0_r. fold h. destruct (cmp_tests _ _ K V1) as (_ & -> & _). destruct (cmp_tests _ _ K V2) as (_ & -> & _). fold h. fold cmin cmax.
    replace ((max - 1) / 65536 * 65536 <? h * 65536) with ((max - 1) / 65536 <? h) by (destruct (Z.ltb_spec ((max - 1) / 65536) h); lia).
    replace (65536 <? h * 65536 - prev * 65536) with (1 <? h - prev) by lia. destruct ((max - 1) / 65536 <? h); auto. destruct (1 <? h - prev); auto. rewrite G. cbn [obind].
    unfold cr_check. destruct ((cmin =? 0) && (cmax =? 65536)); [destruct (container_is_full _)|destruct (container_contains_range _ _ _)]; reflexivity.
  - intros LE2. assert (A : h * 65536 + cmin = Z.max min (h * 65536)) by (unfold cmin, low16; destruct (Z.eqb_spec h (min / 65536)); lia).
    assert (B : h * 65536 + cmax = Z.min max ((h + 1) * 65536)) by (unfold cmax, low16; destruct (Z.eqb_spec h (max / 65536)); lia).
    rewrite <- A, <- B. apply cr_check_spec; auto; [|lia]. split; [unfold cmin, low16; destruct (h =? _); lia|lia].
Qed.
Lemma contains_range_rest r P min max t : v64 min -> v64 max -> min < max -> forall lo, blocks P lo t -> gets r t -> min / 65536 < lo -> lo <= (max - 1) / 65536 + 1 ->
  alltrue P min (Z.min max (lo * 65536)) ->
  exists s, efold (contains_range_body r min max) t (inl ((lo - 1) * 65536)) = Some s /\
    ((match s with inl p => p =? (max - 1) / 65536 * 65536 | inr b => b end) = true <-> covered P min max).
Proof.
  intros V1 V2 LT. pose proof (v_split min) as VS1. pose proof (low_range min) as LR1. pose proof (v_split (max - 1)) as VS3. pose proof (low_range (max - 1)) as LR3. unfold low16 in LR1, LR3.
  set (M := (max - 1) / 65536) in *.
  induction t as [|x t IH]; intros lo B G ML LM AT; pose proof (blocks_lo _ _ _ B) as LB; inversion B as [? L0 Z0|? ? ? L0 K Z0 RX B']; subst; cbn [efold].
  - eexists. split; [reflexivity|]. cbv beta iota. destruct (Z.eqb_spec ((lo - 1) * 65536) (M * 65536)) as [E|NE].
    + split; auto. intros _. exists max. split; [lia|]. split; auto. replace (Z.min max (lo * 65536)) with max in AT by lia. exact AT.
    + split; [discriminate|]. intros (e & E1 & E2 & [->|(E3 & E4 & v & V & T)]); exfalso.
      * assert (T : P (lo * 65536) = true) by (apply E2; lia). rewrite Z0 in T by (unfold v64 in *; lia). discriminate.
      * fold M in V. rewrite Z0 in T by lia. discriminate.
  - apply gets_cons in G as (G & G'). set (h := kv (e_key x)) in *. pose proof (key6_range _ K) as KR. fold h in KR.
    destruct (contains_range_iter r P min max x (lo - 1) V1 V2 LT K G RX ltac:(fold h; lia)) as (b & -> & HB). fold h M in HB |- *. destruct (rep_cne _ _ RX) as (y & Y & T). unfold at_key in T. fold h in T.
    destruct (Z.ltb_spec M h) as [MH|HM].
    { cbn [obind negb]. eexists. split; [reflexivity|]. cbv beta iota. split; auto. intros _. exists (Z.min max (lo * 65536)). split; [lia|]. split; auto.
      destruct (Z_le_dec max (lo * 65536)); [left; lia|right]. replace (Z.min max (lo * 65536)) with (lo * 65536) by lia. split; [now rewrite Z.mod_mul by lia|]. fold M. split.
      - intros v V. apply Z0. lia.
      - exists (h * 65536 + y). split; auto. lia. }
    specialize (HB HM). destruct (Z.ltb_spec 1 (h - (lo - 1))) as [GAP|NG].
    { cbn [obind negb]. eexists. split; [reflexivity|]. cbv beta iota. split; [discriminate|]. intros (e & E1 & E2 & W). exfalso.
      assert (F : P (lo * 65536) = false) by (apply Z0; lia). assert (EL : e <= lo * 65536) by (destruct (Z_lt_dec (lo * 65536) e); [|lia]; rewrite E2 in F by lia; discriminate).
      destruct W as [->|(E3 & E4 & _)]; [lia|]. rewrite E4 in T by (fold M; lia). discriminate. }
    assert (EL : h = lo) by lia. rewrite EL in *. destruct b; cbn [obind negb].
    + destruct HB as (HB & _). specialize (HB eq_refl). destruct (IH _ B' G') as (s & ES & S); [lia|lia| |].
      * replace (Z.max min (lo * 65536)) with (lo * 65536) in HB by lia. replace (Z.min max (lo * 65536)) with (lo * 65536) in AT by lia. eapply alltrue_app; eauto.
      * replace (lo + 1 - 1) with lo in ES by lia. exists s. auto.
    + eexists. split; [reflexivity|]. cbv beta iota. split; [discriminate|]. intros (e & E1 & E2 & W). exfalso. assert (X : false = true); [|discriminate]. apply HB. clear HB.
      destruct W as [->|(E3 & E4 & _)]; [intros v V; apply E2; lia|]. fold M in E4. destruct (Z_le_dec e (lo * 65536)) as [LE|GT]; [rewrite E4 in T by lia; discriminate|].
      intros v V. apply E2. split; [lia|]. assert (e >= (lo + 1) * 65536); [|lia]. pose proof (Z.div_mod e 65536 ltac:(lia)). assert (lo < e / 65536); [|lia]. lia.
Qed.
Lemma roaring64_bitmap_contains_range_spec r P min max : den r P -> v64 min -> v64 max -> exists b, roaring64_bitmap_contains_range r min max = Some b /\
  (b = true <-> max <= min \/ covered P min max).
Proof.
  intros D V1 V2. unfold roaring64_bitmap_contains_range. destruct (Z.leb_spec max min) as [LE|LT]; [exists true; split; auto; split; auto|].
  pose proof (v_split min) as VS1. pose proof (low_range min) as LR1. pose proof (v_split (max - 1)) as VS3. pose proof (low_range (max - 1)) as LR3. unfold low16 in LR1, LR3.
  destruct (lower_blocks r P min D V1) as (it & l & t & -> & H & L & A & S & B). cbn [obind].
  assert (NO : P min = false -> false = true <-> max <= min \/ covered P min max).
  { intros F. split; [discriminate|]. intros [X|(e & E1 & E2 & _)]; [lia|]. rewrite E2 in F by lia. discriminate. }
  destruct t as [|x t].
  - rewrite (at_end _ _ _ _ A). cbn [Z.eqb orb]. exists false. split; auto. apply NO. inversion B as [? L0 Z0|]; subst. apply Z0. unfold v64 in V1. lia.
  - destruct (at_val _ _ _ _ _ _ A) as (EV & EK & NZ). rewrite EV, EK, combine_kv, Z.add_0_r. destruct (Z.eqb_spec (e_lf x) 0); [tauto|]. cbn [orb]. inversion B as [|? ? ? L0 K Z0 RX B']; subst. set (h := kv (e_key x)) in *.
    destruct (Z.ltb_spec min (h * 65536)) as [LT2|GE].
    + exists false. split; auto. apply NO. apply Z0. lia.
    + assert (EH : h = min / 65536) by lia. rewrite (each_efold r _ (l ++ x :: t) H (x :: t) l it) by (auto; eapply R_fuel; eauto). cbn [efold].
      pose proof (R_gets _ _ _ H) as G. apply gets_cons in G as (G & G').
      destruct (contains_range_iter r P min max x (min / 65536) V1 V2 LT K G RX ltac:(fold h; lia)) as (b & -> & HB). fold h in HB |- *. specialize (HB ltac:(lia)).
      destruct (Z.ltb_spec ((max - 1) / 65536) h); [lia|]. destruct (Z.ltb_spec 1 (h - min / 65536)); [lia|]. destruct b; cbn [obind negb].
      * destruct (contains_range_rest r P min max t V1 V2 LT (h + 1) B' G') as (s & ES & SS); [lia|lia| |].
        -- destruct HB as (HB & _). specialize (HB eq_refl). replace (Z.max min (h * 65536)) with min in HB by lia. exact HB.
        -- replace (h + 1 - 1) with h in ES by lia. rewrite ES. cbn [obind]. destruct s as [p|b2]; eexists; (split; [reflexivity|]); rewrite SS; (split; [tauto|]; intros [X|X]; [lia|auto]).
      * exists false. split; auto. split; [discriminate|]. intros [X|(e & E1 & E2 & W)]; [lia|]. apply HB. clear HB. replace (Z.max min (h * 65536)) with min by lia. intros v V. apply E2. split; [lia|].
        destruct W as [->|(E3 & _)]; [lia|]. pose proof (Z.div_mod e 65536 ltac:(lia)). lia.
Qed.
(** never a false negative; exact when the range lies in one block or nothing lies beyond its last block *)
Lemma covered_all P min max : min < max -> alltrue P min max -> covered P min max.
Proof. intros L A. exists max. split; [lia|]. auto. Qed.
Lemma covered_one P min max : 0 <= min < max -> min / 65536 = (max - 1) / 65536 -> covered P min max -> alltrue P min max.
Proof.
  intros L E (e & E1 & E2 & W). destruct (Z.eq_dec e max) as [EM|NE]; [rewrite EM in E2; exact E2|]. destruct W as [->|(E3 & _)]; auto. exfalso.
  pose proof (Z.div_mod e 65536 ltac:(lia)). pose proof (v_split min). pose proof (Z.mod_pos_bound min 65536 ltac:(lia)).
  assert (e / 65536 <= (max - 1) / 65536) by (apply Z.div_le_mono; lia). lia.
Qed.
Lemma covered_end P min max : 0 <= min < max -> (forall v, max <= v < 2^64 -> P v = false) -> covered P min max -> alltrue P min max.
Proof.
  intros L E (e & E1 & E2 & [->|(E3 & E4 & v & V & T)]); auto. exfalso. pose proof (v_split (max - 1)). pose proof (Z.mod_pos_bound (max - 1) 65536 ltac:(lia)). rewrite E in T by lia. discriminate.
Qed.
