(** Frozen: the frozen format and portable_deserialize_frozen (roaring.c:2905-3360).
    A view shares memory with the buffer; the model gives the value of the view for
    the content the buffer has when the view is made (the buffer must not change
    while the view is in use, roaring.h:677-690). *)
From Coq Require Import ZArith List Bool Lia.
From Verif Require Import Base ArrayUtil BitUtil BitsetC ArrayC RunC RunD Convert Containers RArray RBinary RPoint RRange RQuery RStat Bytes Serial SerialP.
Import ListNotations.
Local Open Scope Z_scope.
Local Opaque zr.

(** * Model *)
(** containers.h:42-45 type codes *)
Definition typecode (c : container) : Z := match c with CBit _ => 1 | CArr _ => 2 | CRun _ => 3 end.
(** bytes of a container in its zone *)
Definition zone_bytes (c : container) : list Z :=
  match c with CBit b => les 8 (b_words b) | CArr a => les 2 a | CRun r => les 2 (run_words r) end.
Definition zone_size (c : container) : Z := match c with CBit _ => 8192 | CArr a => zlen a * 2 | CRun r => zlen r * 4 end.
(** roaring.c:2944-2969 roaring_bitmap_frozen_size_in_bytes; [sh k]: the container of key [k]
    is SHARED, for which the switch has no case (roaring_unreachable, None) *)
Definition roaring_bitmap_frozen_size_in_bytes (sh : Z -> bool) (r : bitmap) : option Z :=
  if existsb (fun p => sh (fst p)) r then None
  else Some (fold_left (fun n p => n + zone_size (snd p)) r 0 + (2 + 2 + 1) * zlen r + 4).
(** roaring.c:3010-3056: the loop over the containers; the zone pointers bz, rz, az *)
Definition frozen_count (c : container) : Z :=
  match c with
  | CBit b => u16 ((if negb (b_card b =? -1) then b_card b else bitset_container_compute_cardinality (b_words b)) - 1)
  | CRun x => u16 (zlen x)
  | CArr a => u16 (zlen a - 1)
  end.
Fixpoint frozen_loop (r : bitmap) (i bz rz az cz : Z) (m : list Z) : option (list Z) :=
  match r with
  | [] => Some m
  | (_, c) :: t =>
    let pos := match c with CBit _ => bz | CRun _ => rz | CArr _ => az end in
    obind (store m pos (zone_bytes c)) (fun m =>
    obind (store m (cz + 2 * i) (le 2 (frozen_count c))) (fun m =>
    match c with
    | CBit _ => frozen_loop t (i + 1) (bz + 8192) rz az cz m
    | CRun x => frozen_loop t (i + 1) bz (rz + 4 * zlen x) az cz m
    | CArr a => frozen_loop t (i + 1) bz rz (az + 2 * zlen a) cz m
    end))
  end.
(** roaring.c:2979-3065 roaring_bitmap_frozen_serialize *)
Definition roaring_bitmap_frozen_serialize (sh : Z -> bool) (r : bitmap) (buf : list Z) : option (list Z) :=
  if existsb (fun p => sh (fst p)) r then None else
  let bitset_zone_size := tot (onB zone_size) r in
  let run_zone_size := tot (onR zone_size) r in
  let array_zone_size := tot (onA zone_size) r in
  let run_zone := bitset_zone_size in
  let array_zone := run_zone + run_zone_size in
  let key_zone := array_zone + array_zone_size in
  let count_zone := key_zone + 2 * zlen r in
  let typecode_zone := count_zone + 2 * zlen r in
  let header_zone := typecode_zone + zlen r in
  obind (frozen_loop r 0 0 run_zone array_zone count_zone buf) (fun m =>
  obind (store m key_zone (les 2 (rkeys r))) (fun m =>
  obind (store m typecode_zone (map (fun p => typecode (snd p)) r)) (fun m =>
  store m header_zone (le 4 (Z.lor (u32 (Z.shiftl (zlen r) 15)) 13766))))).
(** roaring.c:3084-3117: zone sizes; Fail on an unknown type code *)
Fixpoint frozen_zones (buf : list Z) (counts typecodes : Z) (n : nat) (i bs rs as_ : Z) : res (Z * Z * Z) :=
  match n with
  | O => Ok (bs, rs, as_)
  | S n' =>
    match rdv 1 buf (typecodes + i) with
    | None => UB
    | Some tc =>
      if tc =? 1 then frozen_zones buf counts typecodes n' (i + 1) (bs + 8192) rs as_
      else if (tc =? 3) || (tc =? 2) then
        match rdv 2 buf (counts + 2 * i) with
        | None => UB
        | Some cnt => if tc =? 3 then frozen_zones buf counts typecodes n' (i + 1) bs (rs + cnt * 4) as_
                      else frozen_zones buf counts typecodes n' (i + 1) bs rs (as_ + (cnt + 1) * 2)
        end
      else Fail
    end
  end.
(** roaring.c:3154-3192: the containers of the view *)
Fixpoint frozen_containers (buf : list Z) (keys counts typecodes : Z) (n : nat) (i bz rz az : Z) : res bitmap :=
  match n with
  | O => Ok []
  | S n' =>
    match rdv 2 buf (keys + 2 * i), rdv 2 buf (counts + 2 * i), rdv 1 buf (typecodes + i) with
    | Some key, Some cnt, Some tc =>
      let put c x := match x with Ok t => Ok ((key, c) :: t) | Fail => Fail | UB => UB end in
      if tc =? 1 then
        match bitset_container_read (cnt + 1) buf bz with
        | None => UB | Some b => put (CBit b) (frozen_containers buf keys counts typecodes n' (i + 1) (bz + 8192) rz az) end
      else if tc =? 3 then
        match rd buf rz (cnt * 4) with
        | None => UB
        | Some l => put (CRun (pair_up (le_vals 2 (2 * Z.to_nat cnt) l))) (frozen_containers buf keys counts typecodes n' (i + 1) bz (rz + 4 * cnt) az) end
      else if tc =? 2 then
        match array_container_read (cnt + 1) buf az with
        | None => UB | Some a => put (CArr a) (frozen_containers buf keys counts typecodes n' (i + 1) bz rz (az + 2 * (cnt + 1))) end
      else Fail
    | _, _, _ => UB
    end
  end.
(** roaring.c:3067-3193 roaring_bitmap_frozen_view; [aligned]: the address is a multiple of 32 *)
Definition roaring_bitmap_frozen_view (aligned : bool) (buf : list Z) (length : Z) : res bitmap :=
  if negb aligned then Fail else
  if length <? 4 then Fail else
  match rdv 4 buf (length - 4) with
  | None => UB
  | Some header =>
    if negb (Z.land header 32767 =? 13766) then Fail else
    let num := Z.shiftr header 15 in
    if length <? 4 + num * (1 + 2 + 2) then Fail else
    let keys := length - 4 - num * 5 in
    let counts := length - 4 - num * 3 in
    let typecodes := length - 4 - num * 1 in
    match frozen_zones buf counts typecodes (Z.to_nat num) 0 0 0 0 with
    | UB => UB | Fail => Fail
    | Ok (bs, rs, as_) =>
      if negb (length =? bs + rs + as_ + 5 * num + 4) then Fail
      else frozen_containers buf keys counts typecodes (Z.to_nat num) 0 0 bs (bs + rs)
    end
  end.
(** roaring.c:3283-3358: the containers of portable_deserialize_frozen; [oh] = the offset
    headers, if present *)
Fixpoint pfrozen_containers (buf : list Z) (hasrun : bool) (bmo dh : Z) (oh : option Z) (n : nat) (i off : Z) : res bitmap :=
  match n with
  | O => Ok []
  | S n' =>
    match rdv 2 buf (dh + 2 * (2 * i + 1)), read_isrun buf hasrun bmo i, rdv 2 buf (dh + 2 * (2 * i)) with
    | Some tmp, Some isrun, Some key =>
      let card := tmp + 1 in
      let pos := match oh with Some o => rdv 4 buf (o + 4 * i) | None => Some off end in
      let next c adv :=
        match pfrozen_containers buf hasrun bmo dh oh n' (i + 1) (match oh with Some _ => off | None => off + adv end) with
        | Ok t => Ok ((key, c) :: t) | Fail => Fail | UB => UB end in
      match pos with
      | None => UB
      | Some p =>
        if (4096 <? card) && negb isrun then match bitset_container_read card buf p with None => UB | Some b => next (CBit b) 8192 end
        else if isrun then match run_container_read buf p with None => UB | Some x => next (CRun x) (2 + 4 * zlen x) end
        else match array_container_read card buf p with None => UB | Some a => next (CArr a) (card * 2) end
      end
    | _, _, _ => UB
    end
  end.
(** roaring.c:3195-3353 roaring_bitmap_portable_deserialize_frozen (the first loop, which only
    counts containers for the allocation, reads the same headers) *)
Definition roaring_bitmap_portable_deserialize_frozen (buf : list Z) : res bitmap :=
  match rdv 4 buf 0 with
  | None => UB
  | Some cookie =>
    if cookie =? 12346 then
      match rdv 4 buf 4 with
      | None => UB
      | Some v => let num := s32 v in
                  pfrozen_containers buf false 0 8 (Some (8 + num * 4)) (Z.to_nat num) 0 (8 + num * 4 + num * 4)
      end
    else if Z.land cookie 65535 =? 12347 then
      let num := Z.shiftr cookie 16 + 1 in
      let s := (num + 7) / 8 in
      if 4 <=? num then pfrozen_containers buf true 4 (4 + s) (Some (4 + s + num * 4)) (Z.to_nat num) 0 (4 + s + num * 4 + num * 4)
      else pfrozen_containers buf true 4 (4 + s) None (Z.to_nat num) 0 (4 + s + num * 4)
    else Fail
  end.
