(** Bytes: little-endian encodings, bounded reads and writes of a byte buffer. *)
From Coq Require Import ZArith List Bool Lia.
From Verif Require Import Base.
Import ListNotations.
Local Open Scope Z_scope.
Local Opaque zr.

(** a byte string *)
Definition bytes (l : list Z) : Prop := Forall (fun b => 0 <= b < 256) l.
(** the [w]-byte little-endian encoding of [v] (memcpy of an unsigned integer of
    [w] bytes on a little-endian host; the code says it is endian-sensitive) *)
Fixpoint le (w : nat) (v : Z) : list Z := match w with O => [] | S w' => v mod 256 :: le w' (v / 256) end.
Fixpoint le_val (l : list Z) : Z := match l with [] => 0 | b :: t => b + 256 * le_val t end.
(** an array of [n] integers of [w] bytes *)
Definition les (w : nat) (l : list Z) : list Z := flat_map (le w) l.
Fixpoint le_vals (w n : nat) (l : list Z) : list Z :=
  match n with O => [] | S n' => le_val (firstn w l) :: le_vals w n' (skipn w l) end.

(** ** Buffers: reading or writing outside is a distinct outcome *)
Definition rd (buf : list Z) (off n : Z) : option (list Z) :=
  if (0 <=? off) && (0 <=? n) && (off + n <=? zlen buf) then Some (firstn (Z.to_nat n) (skipn (Z.to_nat off) buf)) else None.
Definition rdv (w : nat) (buf : list Z) (off : Z) : option Z := option_map le_val (rd buf off (Z.of_nat w)).
Definition store (m : list Z) (off : Z) (bs : list Z) : option (list Z) :=
  if (0 <=? off) && (off + zlen bs <=? zlen m) then Some (firstn (Z.to_nat off) m ++ bs ++ skipn (Z.to_nat (off + zlen bs)) m) else None.

(** ** Lemmas *)
Lemma le_length w v : length (le w v) = w.
Proof. revert v. induction w; cbn; auto. Qed.
Lemma le_zlen w v : zlen (le w v) = Z.of_nat w. Proof. unfold zlen. now rewrite le_length. Qed.
Lemma le_bytes w v : bytes (le w v).
Proof. revert v. induction w; intros v; cbn [le]; constructor; [|apply IHw]. apply Z.mod_pos_bound. lia. Qed.
Lemma le_val_le w v : le_val (le w v) = v mod 256 ^ Z.of_nat w.
Proof.
  revert v. induction w; intros v. { cbn. now rewrite Z.mod_1_r. }
  cbn [le le_val]. rewrite IHw. rewrite Nat2Z.inj_succ, Z.pow_succ_r by lia.
  rewrite (Z.rem_mul_r v 256 (256 ^ Z.of_nat w)); lia.
Qed.
Lemma le_val_in w v : 0 <= v < 256 ^ Z.of_nat w -> le_val (le w v) = v.
Proof. intros. rewrite le_val_le. now apply Z.mod_small. Qed.
Lemma le_val_range l : bytes l -> 0 <= le_val l < 256 ^ zlen l.
Proof.
  induction 1 as [|b t Hb Ht IH]; [change (0 <= 0 < 256 ^ 0); lia|]. cbn [le_val]. rewrite zlen_cons. rewrite Z.pow_add_r by (pose proof (zlen_nonneg t); lia). lia.
Qed.
Lemma le_of_val l : bytes l -> le (length l) (le_val l) = l.
Proof.
  induction 1 as [|b t Hb Ht IH]; auto. cbn [length le le_val]. replace ((b + 256 * le_val t) mod 256) with b by dm.
  replace ((b + 256 * le_val t) / 256) with (le_val t) by dm. now rewrite IH.
Qed.
Lemma bytes_app a b : bytes (a ++ b) <-> bytes a /\ bytes b. Proof. apply Forall_app. Qed.
Lemma bytes_firstn n l : bytes l -> bytes (firstn n l).
Proof. intros H. rewrite <- (firstn_skipn n l) in H. now apply bytes_app in H. Qed.
Lemma bytes_skipn n l : bytes l -> bytes (skipn n l).
Proof. intros H. rewrite <- (firstn_skipn n l) in H. now apply bytes_app in H. Qed.
Lemma les_cons w v l : les w (v :: l) = le w v ++ les w l. Proof. reflexivity. Qed.
Lemma les_app w a b : les w (a ++ b) = les w a ++ les w b.
Proof. induction a; cbn [app]; auto. rewrite !les_cons, IHa. now rewrite app_assoc. Qed.
Lemma les_zlen w l : zlen (les w l) = Z.of_nat w * zlen l.
Proof. induction l; [change (0 = Z.of_nat w * 0); lia|]. rewrite les_cons, zlen_app, zlen_cons, le_zlen. lia. Qed.
Lemma les_bytes w l : bytes (les w l).
Proof. induction l; [constructor|]. rewrite les_cons. apply bytes_app. split; auto. apply le_bytes. Qed.
Lemma firstn_app_l {A} n (a b : list A) : n = length a -> firstn n (a ++ b) = a.
Proof. intros ->. rewrite firstn_app, Nat.sub_diag, firstn_all. apply app_nil_r. Qed.
Lemma skipn_app_l {A} n (a b : list A) : n = length a -> skipn n (a ++ b) = b.
Proof. intros ->. rewrite skipn_app, Nat.sub_diag, skipn_all. reflexivity. Qed.
Lemma le_vals_les w l rest : Forall (fun v => 0 <= v < 256 ^ Z.of_nat w) l -> le_vals w (length l) (les w l ++ rest) = l.
Proof.
  induction 1 as [|v l Hv Hl IH]; auto. cbn [length le_vals]. rewrite les_cons, <- app_assoc.
  rewrite firstn_app_l by now rewrite le_length. rewrite skipn_app_l by now rewrite le_length. now rewrite le_val_in, IH.
Qed.
Lemma le_vals_length w n l : length (le_vals w n l) = n.
Proof. revert l. induction n; cbn; auto. Qed.
Lemma le_vals_zlen w n l : zlen (le_vals w n l) = Z.of_nat n. Proof. unfold zlen. now rewrite le_vals_length. Qed.
Lemma le_val_short w l : bytes l -> 0 <= le_val (firstn w l) < 256 ^ Z.of_nat w.
Proof.
  intros H. pose proof (le_val_range _ (bytes_firstn w l H)) as R. pose proof (firstn_le_length w l) as F.
  pose proof (Z.pow_le_mono_r 256 (zlen (firstn w l)) (Z.of_nat w) ltac:(lia) ltac:(unfold zlen; lia)). lia.
Qed.
Lemma le_vals_range w n l : bytes l -> Forall (fun v => 0 <= v < 256 ^ Z.of_nat w) (le_vals w n l).
Proof.
  revert l. induction n; intros l H; cbn [le_vals]; constructor. { now apply le_val_short. } apply IHn. now apply bytes_skipn.
Qed.
Lemma les_vals w n l : bytes l -> length l = (n * w)%nat -> les w (le_vals w n l) = l.
Proof.
  revert l. induction n; intros l H E. { destruct l; auto; discriminate. }
  cbn [le_vals]. rewrite les_cons, IHn.
  - replace w with (length (firstn w l)) at 1. 2:{ rewrite firstn_length. lia. }
    rewrite le_of_val by now apply bytes_firstn. apply firstn_skipn.
  - now apply bytes_skipn.
  - rewrite skipn_length. lia.
Qed.

Lemma rd_some buf off n : 0 <= off -> 0 <= n -> off + n <= zlen buf -> rd buf off n = Some (firstn (Z.to_nat n) (skipn (Z.to_nat off) buf)).
Proof. intros. unfold rd. now rewrite !(proj2 (Z.leb_le _ _)) by lia. Qed.
Lemma rd_inv buf off n l : rd buf off n = Some l -> 0 <= off /\ 0 <= n /\ off + n <= zlen buf /\ l = firstn (Z.to_nat n) (skipn (Z.to_nat off) buf) /\ zlen l = n.
Proof.
  unfold rd. destruct (0 <=? off) eqn:A; [|discriminate]. destruct (0 <=? n) eqn:B; [|discriminate]. destruct (off + n <=? zlen buf) eqn:C; [|discriminate].
  apply Z.leb_le in A, B, C. intros [= <-]. repeat split; auto. unfold zlen in *. rewrite firstn_length, skipn_length. lia.
Qed.
Lemma rd_bytes buf off n l : bytes buf -> rd buf off n = Some l -> bytes l.
Proof. intros H E. apply rd_inv in E as (_&_&_&->&_). apply bytes_firstn. now apply bytes_skipn. Qed.
(** reading back what was placed at a known position *)
Lemma rd_at pre l post off n : off = zlen pre -> n = zlen l -> rd (pre ++ l ++ post) off n = Some l.
Proof.
  intros -> ->. rewrite rd_some; try apply zlen_nonneg. 2:{ rewrite !zlen_app. pose proof (zlen_nonneg post). lia. }
  f_equal. rewrite skipn_app_l by (unfold zlen; lia). apply firstn_app_l. unfold zlen; lia.
Qed.
Lemma rdv_at w pre l post off : off = zlen pre -> zlen l = Z.of_nat w -> rdv w (pre ++ l ++ post) off = Some (le_val l).
Proof. intros A B. unfold rdv. now rewrite (rd_at pre l post) by auto. Qed.
Lemma rdv_le w pre v post off : off = zlen pre -> 0 <= v < 256 ^ Z.of_nat w -> rdv w (pre ++ le w v ++ post) off = Some v.
Proof. intros A B. rewrite (rdv_at w pre) by (auto; apply le_zlen). now rewrite le_val_in. Qed.
Lemma rdv_some w buf off : 0 <= off -> off + Z.of_nat w <= zlen buf -> exists v, rdv w buf off = Some v.
Proof. intros. unfold rdv. rewrite rd_some by lia. cbn. eauto. Qed.
Lemma rdv_range w buf off v : bytes buf -> rdv w buf off = Some v -> 0 <= v < 256 ^ Z.of_nat w.
Proof.
  intros H. unfold rdv. destruct (rd buf off (Z.of_nat w)) as [l|] eqn:E; [|discriminate]. cbn. intros [= <-].
  pose proof (rd_bytes _ _ _ _ H E). apply rd_inv in E as (_&_&_&_&L). rewrite <- L. now apply le_val_range.
Qed.
Lemma rdv_inv w buf off v : rdv w buf off = Some v -> 0 <= off /\ off + Z.of_nat w <= zlen buf.
Proof. unfold rdv. destruct (rd buf off (Z.of_nat w)) as [l|] eqn:E; [|discriminate]. apply rd_inv in E. intros _. lia. Qed.
(** a read below [zlen a] does not see what follows *)
Lemma rd_prefix a b off n : off + n <= zlen a -> rd (a ++ b) off n = rd a off n.
Proof.
  intros H. unfold rd. destruct (0 <=? off) eqn:A; auto. destruct (0 <=? n) eqn:B; auto. apply Z.leb_le in A, B.
  rewrite zlen_app. pose proof (zlen_nonneg b). rewrite !(proj2 (Z.leb_le _ _)) by lia. cbn [andb]. f_equal.
  unfold zlen in *. rewrite skipn_app, firstn_app, skipn_length. replace (Z.to_nat n - (length a - Z.to_nat off))%nat with 0%nat by lia.
  cbn. apply app_nil_r.
Qed.
Lemma rdv_prefix w a b off : off + Z.of_nat w <= zlen a -> rdv w (a ++ b) off = rdv w a off.
Proof. intros. unfold rdv. now rewrite rd_prefix. Qed.

(** a write cursor: [pre] has been written, [rest] is still to be overwritten *)
Definition cursor (st : list Z * Z) (pre rest : list Z) : Prop := st = (pre ++ rest, zlen pre).
Definition wr (bs : list Z) (adv : Z) (st : list Z * Z) : option (list Z * Z) :=
  match store (fst st) (snd st) bs with Some m => Some (m, snd st + adv) | None => None end.
Lemma skipn_skipn' {A} a b (l : list A) : skipn a (skipn b l) = skipn (b + a) l.
Proof. revert l. induction b; intros l; auto. destruct l; [now rewrite !skipn_nil|]. cbn. apply IHb. Qed.
Lemma wr_cursor bs adv st pre rest : cursor st pre rest -> zlen bs <= zlen rest -> adv = zlen bs ->
  exists st', wr bs adv st = Some st' /\ cursor st' (pre ++ bs) (skipn (length bs) rest).
Proof.
  intros -> H ->. unfold wr, store. cbn [fst snd]. rewrite (proj2 (Z.leb_le 0 _)) by apply zlen_nonneg. rewrite (proj2 (Z.leb_le _ (zlen (pre ++ rest)))) by (rewrite zlen_app; lia).
  cbn [andb]. eexists. split; [reflexivity|]. red. rewrite zlen_app. f_equal.
  rewrite firstn_app_l by (unfold zlen; lia). rewrite <- app_assoc. do 2 f_equal.
  replace (Z.to_nat (zlen pre + zlen bs)) with (length pre + length bs)%nat by (unfold zlen; lia).
  rewrite <- skipn_skipn'. now rewrite skipn_app_l.
Qed.
