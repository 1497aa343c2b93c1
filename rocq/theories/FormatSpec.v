(** FormatSpec: the portable interchange format, as published for the Roaring
    implementations (format specification referenced in README.md and
    roaring.h:560-562), described without reference to the model of the code. *)
From Coq Require Import ZArith List Bool Sorting.Sorted.
From Verif Require Import Spec.
Import ListNotations.
Local Open Scope Z_scope.

(** little endian integers *)
Definition le16 (v : Z) : list Z := [v mod 256; v / 256 mod 256].
Definition le32 (v : Z) : list Z := [v mod 256; v / 256 mod 256; v / 65536 mod 256; v / 16777216 mod 256].
(** the same read back from offset [i] *)
Definition u16_at (l : list Z) (i : nat) : Z := nth i l 0 + 256 * nth (i + 1) l 0.
Definition u32_at (l : list Z) (i : nat) : Z := u16_at l i + 65536 * u16_at l (i + 2).
(** bit [x] of a bit string stored low bit first *)
Definition byte_bit (l : list Z) (x : Z) : bool := Z.testbit (nth (Z.to_nat (x / 8)) l 0) (x mod 8).
Definition all_bytes (l : list Z) : Prop := Forall (fun b => 0 <= b < 256) l.
(** one container: its key, how it is stored, its members (16 low bits), its bytes *)
Inductive ckind : Type := SortedList | BitString | RunList.
Record part : Type := Part { p_key : Z; p_kind : ckind; p_members : list Z; p_bytes : list Z }.
Definition is_runs (p : part) : bool := match p_kind p with RunList => true | _ => false end.
Definition zlength {A} (l : list A) : Z := Z.of_nat (length l).
Definition part_ok (P : zset) (p : part) : Prop :=
  0 <= p_key p < 65536 /\ p_members p <> [] /\ StronglySorted Z.lt (p_members p) /\
  (forall x, In x (p_members p) <-> 0 <= x < 65536 /\ P (65536 * p_key p + x) = true) /\
  match p_kind p with
  | SortedList => zlength (p_members p) <= 4096 /\ p_bytes p = flat_map le16 (p_members p)
  | BitString => 4096 < zlength (p_members p) /\ zlength (p_bytes p) = 8192 /\ all_bytes (p_bytes p) /\
                 forall x, 0 <= x < 65536 -> (byte_bit (p_bytes p) x = true <-> In x (p_members p))
  | RunList => exists runs : list (Z * Z),
                 p_bytes p = le16 (zlength runs) ++ flat_map (fun q => le16 (fst q) ++ le16 (snd q)) runs /\
                 zlength runs <= 65535 /\
                 StronglySorted (fun q q' => fst q + snd q + 1 < fst q') runs /\
                 Forall (fun q => 0 <= fst q /\ 0 <= snd q /\ fst q + snd q < 65536) runs /\
                 forall x, In x (p_members p) <-> exists q, In q runs /\ fst q <= x <= fst q + snd q
  end.
(** cookie, number of containers, run flags *)
Definition head_ok (ps : list part) (h : list Z) : Prop :=
  if existsb is_runs ps then
    exists flags, h = le32 (12347 + (zlength ps - 1) * 65536) ++ flags /\ zlength flags = (zlength ps + 7) / 8 /\ all_bytes flags /\
    forall i, 0 <= i -> byte_bit flags i = match nth_error ps (Z.to_nat i) with Some p => is_runs p | None => false end
  else h = le32 12346 ++ le32 (zlength ps).
(** offsets of the containers from the start; absent in a file with runs and fewer than four containers *)
Definition offsets_ok (ps : list part) (total : Z) (offs : list Z) : Prop :=
  if existsb is_runs ps && (zlength ps <? 4) then offs = []
  else zlength offs = zlength ps /\
       forall i, (i < length ps)%nat -> nth i offs 0 = total - zlength (flat_map p_bytes (skipn i ps)).
Definition portable_format (P : zset) (out : list Z) : Prop := exists ps h offs,
  StronglySorted Z.lt (map p_key ps) /\ Forall (part_ok P) ps /\ (forall v, val32 v -> P v = true -> In (v / 65536) (map p_key ps)) /\
  head_ok ps h /\ offsets_ok ps (zlength out) offs /\
  out = h ++ flat_map (fun p => le16 (p_key p) ++ le16 (zlength (p_members p) - 1)) ps ++ flat_map le32 offs ++ flat_map p_bytes ps.
