(** Serial: the portable and native serialization formats (roaring_array.c, roaring.c),
    on byte buffers where an access outside the buffer is a distinct outcome. *)
From Coq Require Import ZArith List Bool Lia.
From Verif Require Import Base ArrayUtil BitUtil BitsetC ArrayC RunC RunD Convert Containers RArray RBinary RPoint RRange RQuery RStat Bytes.
Import ListNotations.
Local Open Scope Z_scope.
Local Opaque zr.

(** outcome of a reader: access outside the buffer, NULL/false, or a result *)
Inductive res (A : Type) : Type := UB | Fail | Ok (a : A).
Arguments UB {A}. Arguments Fail {A}. Arguments Ok {A} a.

(** * Model *)
(** ** Sizes *)
(** roaring_array.c:519-526 *)
Definition ra_has_run_container (r : bitmap) : bool := existsb (fun p => is_run (snd p)) r.
(** roaring_array.c:528-540 *)
Definition ra_portable_header_size (r : bitmap) : Z :=
  let size := zlen r in
  if ra_has_run_container r then
    if size <? 4 then u32 (4 + (size + 7) / 8 + 4 * size) else u32 (4 + (size + 7) / 8 + 8 * size)
  else u32 (4 + 4 + 8 * size).
(** roaring_array.c:542-549, roaring.c:1498-1500 roaring_bitmap_portable_size_in_bytes *)
Definition ra_portable_size_in_bytes (r : bitmap) : Z :=
  fold_left (fun count p => count + container_size_in_bytes (snd p)) r (ra_portable_header_size r).
Definition roaring_bitmap_portable_size_in_bytes := ra_portable_size_in_bytes.
(** roaring.c:1492-1498 *)
Definition roaring_bitmap_size_in_bytes (r : bitmap) : Z :=
  let portablesize := roaring_bitmap_portable_size_in_bytes r in
  let sizeasarray := roaring_bitmap_get_cardinality r * 4 + 4 in
  if portablesize <? sizeasarray then portablesize + 1 else sizeasarray + 1.

(** ** Writing.  The state is the memory of the destination buffer and the
    position of the write pointer. *)
(** run.c:716-722, array.c:510-513, bitset.c:1049-1053: bytes copied (the two
    memcpy of run_container_write are adjacent and given as one string) *)
Definition run_words (r : list run) : list Z := flat_map (fun x : run => [fst x; snd x]) r.
Definition payload (c : container) : list Z :=
  match c with
  | CBit b => les 8 (b_words b)
  | CArr a => les 2 a
  | CRun r => le 2 (u16 (zlen r)) ++ les 2 (run_words r)
  end.
(** containers.h:369-383: the pointer moves by the returned size *)
Definition container_write (c : container) (st : list Z * Z) : option (list Z * Z) := wr (payload c) (container_size_in_bytes c) st.
Definition obind {A B} (o : option A) (f : A -> option B) : option B := match o with Some a => f a | None => None end.
(** roaring_array.c:561-566: the bitmap of run containers *)
Fixpoint set_run_bits (r : bitmap) (i : Z) (bm : list Z) : list Z :=
  match r with
  | [] => bm
  | (_, c) :: t => set_run_bits t (i + 1) (if is_run c then zupd (i / 8) (Z.lor (znth bm (i / 8)) (Z.shiftl 1 (i mod 8))) bm else bm)
  end.
Definition run_flags (r : bitmap) : list Z := set_run_bits r 0 (repeat 0 (Z.to_nat ((zlen r + 7) / 8))).
(** roaring_array.c:586-596 *)
Fixpoint write_keycards (r : bitmap) (st : list Z * Z) : option (list Z * Z) :=
  match r with
  | [] => Some st
  | (k, c) :: t =>
    obind (wr (le 2 k) 2 st) (fun st => obind (wr (le 2 (u16 (container_get_cardinality c - 1))) 2 st) (write_keycards t))
  end.
(** roaring_array.c:597-606 *)
Fixpoint write_offsets (r : bitmap) (startOffset : Z) (st : list Z * Z) : option (list Z * Z) :=
  match r with
  | [] => Some st
  | (_, c) :: t => obind (wr (le 4 startOffset) 4 st) (write_offsets t (u32 (startOffset + container_size_in_bytes c)))
  end.
(** roaring_array.c:607-609 *)
Fixpoint write_containers (r : bitmap) (st : list Z * Z) : option (list Z * Z) :=
  match r with [] => Some st | (_, c) :: t => obind (container_write c st) (write_containers t) end.
(** roaring_array.c:552-611 ra_portable_serialize, roaring.c:1535-1537: the new content of the
    buffer and the returned size; None = a write outside the buffer *)
Definition ra_portable_serialize (r : bitmap) (buf : list Z) : option (list Z * Z) :=
  let size := zlen r in
  let hasrun := ra_has_run_container r in
  obind
    (if hasrun then
       let s := (size + 7) / 8 in
       obind (wr (le 4 (Z.lor 12347 (u32 (Z.shiftl (size - 1) 16)))) 4 (buf, 0)) (fun st =>
       obind (wr (run_flags r) s st) (fun st =>
       Some (st, u32 (if size <? 4 then 4 + 4 * size + s else 4 + 8 * size + s))))
     else
       obind (wr (le 4 12346) 4 (buf, 0)) (fun st =>
       obind (wr (le 4 size) 4 st) (fun st =>
       Some (st, u32 (4 + 4 + 4 * size + 4 * size)))))
  (fun '(st, startOffset) =>
  obind (write_keycards r st) (fun st =>
  obind (if negb hasrun || (4 <=? size) then write_offsets r startOffset st else Some st) (fun st =>
  write_containers r st))).
Definition roaring_bitmap_portable_serialize := ra_portable_serialize.

(** ** Reading *)
(** bit [k] of the run flags at offset [bmo] (roaring_array.c:670-675, 794-799) *)
Definition read_isrun (buf : list Z) (hasrun : bool) (bmo k : Z) : option bool :=
  if hasrun then option_map (fun b => negb (Z.land b (Z.shiftl 1 (k mod 8)) =? 0)) (rdv 1 buf (bmo + k / 8)) else Some false.
(** roaring_array.c:770-774: the key loop *)
Fixpoint read_keys (buf : list Z) (kc : Z) (n : nat) (k : Z) : option (list Z) :=
  match n with
  | O => Some []
  | S n' => obind (rdv 2 buf (kc + 2 * (2 * k))) (fun key => option_map (cons key) (read_keys buf kc n' (k + 1)))
  end.
(** array.c:538-547, bitset.c:1056-1061, run.c:724-737 *)
Definition array_container_read (card : Z) (buf : list Z) (off : Z) : option (list Z) :=
  option_map (le_vals 2 (Z.to_nat card)) (rd buf off (card * 2)).
Definition bitset_container_read (card : Z) (buf : list Z) (off : Z) : option bset :=
  option_map (fun l => (card, le_vals 8 1024 l)) (rd buf off 8192).
Fixpoint pair_up (l : list Z) : list run := match l with a :: b :: t => (a, b) :: pair_up t | _ => [] end.
Definition run_container_read (buf : list Z) (off : Z) : option (list run) :=
  obind (rdv 2 buf off) (fun n =>
  option_map (fun l => pair_up (le_vals 2 (2 * Z.to_nat n) l)) (rd buf (off + 2) (n * 4))).
(** roaring_array.c:788-888: the container loop; [off] is the read pointer, [rb] is *readbytes *)
Fixpoint read_containers (buf : list Z) (maxbytes : Z) (hasrun : bool) (bmo kc : Z) (n : nat) (k off rb : Z) : res (list container * Z) :=
  match n with
  | O => Ok ([], rb)
  | S n' =>
    match rdv 2 buf (kc + 2 * (2 * k + 1)), read_isrun buf hasrun bmo k with
    | Some tmp, Some isrun =>
      let thiscard := tmp + 1 in
      let next c off rb :=
        match read_containers buf maxbytes hasrun bmo kc n' (k + 1) off rb with
        | Ok (cs, rb) => Ok (c :: cs, rb) | Fail => Fail | UB => UB end in
      if (4096 <? thiscard) && negb isrun then
        let rb := rb + 8192 in
        if maxbytes <? rb then Fail
        else match bitset_container_read thiscard buf off with None => UB | Some b => next (CBit b) (off + 8192) rb end
      else if isrun then
        let rb := rb + 2 in
        if maxbytes <? rb then Fail
        else match rdv 2 buf off with
             | None => UB
             | Some n_runs =>
               let rb := rb + n_runs * 4 in
               if maxbytes <? rb then Fail
               else match run_container_read buf off with None => UB | Some x => next (CRun x) (off + (2 + 4 * zlen x)) rb end
             end
      else
        let rb := rb + thiscard * 2 in
        if maxbytes <? rb then Fail
        else match array_container_read thiscard buf off with None => UB | Some a => next (CArr a) (off + thiscard * 2) rb end
    | _, _ => UB
    end
  end.
(** int32_t read: the sign bit makes the value negative *)
Definition s32 (v : Z) : Z := if v <? 2^31 then v else v - 2^32.
(** roaring_array.c:707-882 ra_portable_deserialize (allocation always succeeds;
    the containers of a failed read are released and not visible) *)
Definition ra_portable_deserialize (buf : list Z) (maxbytes : Z) : res (bitmap * Z) :=
  let rb := 4 in
  if maxbytes <? rb then Fail else
  match rdv 4 buf 0 with
  | None => UB
  | Some cookie =>
    let off := 4 in
    let hasrun := Z.land cookie 65535 =? 12347 in
    if negb hasrun && negb (cookie =? 12346) then Fail else
    let body size off rb :=
      if size <? 0 then Fail else
      if 65536 <? size then Fail else
      let s := if hasrun then (size + 7) / 8 else 0 in
      let rb := rb + s in
      if hasrun && (maxbytes <? rb) then Fail else
      let bmo := off in
      let kc := off + s in
      let rb := rb + size * 4 in
      if maxbytes <? rb then Fail else
      let off := kc + size * 4 in
      match read_keys buf kc (Z.to_nat size) 0 with
      | None => UB
      | Some keys =>
        let offsets := negb hasrun || (4 <=? size) in
        let rb := if offsets then rb + size * 4 else rb in
        if offsets && (maxbytes <? rb) then Fail else
        let off := if offsets then off + size * 4 else off in
        match read_containers buf maxbytes hasrun bmo kc (Z.to_nat size) 0 off rb with
        | Ok (cs, rb) => Ok (combine keys cs, rb)
        | Fail => Fail
        | UB => UB
        end
      end in
    if hasrun then body (Z.shiftr cookie 16 + 1) off rb
    else
      let rb := rb + 4 in
      if maxbytes <? rb then Fail else
      match rdv 4 buf off with None => UB | Some v => body (s32 v) (off + 4) rb end
  end.
(** roaring.c:1504-1524 *)
Definition roaring_bitmap_portable_deserialize_safe (buf : list Z) (maxbytes : Z) : res bitmap :=
  match ra_portable_deserialize buf maxbytes with Ok (r, _) => Ok r | Fail => Fail | UB => UB end.
(** roaring.c:1526-1528 (SIZE_MAX) *)
Definition roaring_bitmap_portable_deserialize (buf : list Z) : res bitmap := roaring_bitmap_portable_deserialize_safe buf (2^64 - 1).
(** roaring_array.c:660-703: the container loop of ra_portable_deserialize_size *)
Fixpoint size_containers (buf : list Z) (maxbytes : Z) (hasrun : bool) (bmo kc : Z) (n : nat) (k off bytestotal : Z) : res Z :=
  match n with
  | O => Ok bytestotal
  | S n' =>
    match rdv 2 buf (kc + 2 * (2 * k + 1)), read_isrun buf hasrun bmo k with
    | Some tmp, Some isrun =>
      let thiscard := tmp + 1 in
      if (4096 <? thiscard) && negb isrun then
        let bytestotal := bytestotal + 8192 in
        if maxbytes <? bytestotal then Fail else size_containers buf maxbytes hasrun bmo kc n' (k + 1) (off + 8192) bytestotal
      else if isrun then
        let bytestotal := bytestotal + 2 in
        if maxbytes <? bytestotal then Fail
        else match rdv 2 buf off with
             | None => UB
             | Some n_runs =>
               let bytestotal := bytestotal + n_runs * 4 in
               if maxbytes <? bytestotal then Fail
               else size_containers buf maxbytes hasrun bmo kc n' (k + 1) (off + 2 + n_runs * 4) bytestotal
             end
      else
        let bytestotal := bytestotal + thiscard * 2 in
        if maxbytes <? bytestotal then Fail else size_containers buf maxbytes hasrun bmo kc n' (k + 1) (off + thiscard * 2) bytestotal
    | _, _ => UB
    end
  end.
(** roaring_array.c:620-699 ra_portable_deserialize_size, roaring.c:1530-1533; Fail stands for the
    result 0 *)
Definition ra_portable_deserialize_size (buf : list Z) (maxbytes : Z) : res Z :=
  let bytestotal := 4 in
  if maxbytes <? bytestotal then Fail else
  match rdv 4 buf 0 with
  | None => UB
  | Some cookie =>
    let off := 4 in
    let hasrun := Z.land cookie 65535 =? 12347 in
    if negb hasrun && negb (cookie =? 12346) then Fail else
    let body size off bytestotal :=
      if (65536 <? size) || (size <? 0) then Fail else
      let s := if hasrun then (size + 7) / 8 else 0 in
      let bytestotal := bytestotal + s in
      if hasrun && (maxbytes <? bytestotal) then Fail else
      let bmo := off in
      let kc := off + s in
      let bytestotal := bytestotal + size * 4 in
      if maxbytes <? bytestotal then Fail else
      let off := kc + size * 4 in
      let offsets := negb hasrun || (4 <=? size) in
      let bytestotal := if offsets then bytestotal + size * 4 else bytestotal in
      if offsets && (maxbytes <? bytestotal) then Fail else
      let off := if offsets then off + size * 4 else off in
      size_containers buf maxbytes hasrun bmo kc (Z.to_nat size) 0 off bytestotal in
    if hasrun then body (Z.shiftr cookie 16 + 1) off bytestotal
    else
      let bytestotal := bytestotal + 4 in
      if maxbytes <? bytestotal then Fail else
      match rdv 4 buf off with None => UB | Some v => body (s32 v) (off + 4) bytestotal end
  end.
Definition roaring_bitmap_portable_deserialize_size (buf : list Z) (maxbytes : Z) : option Z :=
  match ra_portable_deserialize_size buf maxbytes with UB => None | Fail => Some 0 | Ok n => Some n end.

(** ** Native format *)
(** roaring.c:1474-1488 roaring_bitmap_serialize *)
Definition roaring_bitmap_serialize (r : bitmap) (buf : list Z) : option (list Z * Z) :=
  let portablesize := roaring_bitmap_portable_size_in_bytes r in
  let cardinality := roaring_bitmap_get_cardinality r in
  let sizeasarray := cardinality * 4 + 4 in
  if portablesize <? sizeasarray then
    obind (store buf 0 [2]) (fun m =>
    match m with
    | b0 :: rest => option_map (fun '(rest', n) => (b0 :: rest', n + 1)) (roaring_bitmap_portable_serialize r rest)
    | [] => None
    end)
  else
    obind (store buf 0 [1]) (fun m =>
    obind (store m 1 (le 4 cardinality)) (fun m =>
    obind (store m 5 (les 4 (roaring_bitmap_to_uint32_array r))) (fun m => Some (m, 1 + sizeasarray)))).
(** the loop of roaring.c:1557-1562 and 1602-1607 *)
Fixpoint read_elems (buf : list Z) (n : nat) (i : Z) (r : bitmap) (ctx : bulk_context) : res bitmap :=
  match n with
  | O => Ok r
  | S n' => match rdv 4 buf (5 + 4 * i) with
            | None => UB
            | Some elem => let '(r', ctx') := roaring_bitmap_add_bulk r ctx elem in read_elems buf n' (i + 1) r' ctx'
            end
  end.
(** roaring.c:1537-1565 roaring_bitmap_deserialize *)
Definition roaring_bitmap_deserialize (buf : list Z) : res bitmap :=
  match rdv 1 buf 0 with
  | None => UB
  | Some b =>
    if b =? 1 then match rdv 4 buf 1 with None => UB | Some card => read_elems buf (Z.to_nat card) 0 [] None end
    else if b =? 2 then roaring_bitmap_portable_deserialize (tl buf)
    else Fail
  end.
(** roaring.c:1567-1609 roaring_bitmap_deserialize_safe *)
Definition roaring_bitmap_deserialize_safe (buf : list Z) (maxbytes : Z) : res bitmap :=
  if maxbytes <? 1 then Fail else
  match rdv 1 buf 0 with
  | None => UB
  | Some b =>
    if b =? 1 then
      if maxbytes <? 1 + 4 then Fail else
      match rdv 4 buf 1 with
      | None => UB
      | Some card => if maxbytes <? 1 + 4 + card * 4 then Fail else read_elems buf (Z.to_nat card) 0 [] None
      end
    else if b =? 2 then roaring_bitmap_portable_deserialize_safe (tl buf) (maxbytes - 1)
    else Fail
  end.
