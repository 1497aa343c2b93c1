(** RCpp: the C++ class Roaring (cpp/roaring.hh:70-917): lifetime, copies, moves and
    assignments of objects that own their containers; its iterator class
    (roaring.hh:922-1027) with the shared end().

    Simplifications.  Allocation succeeds and never reuses an address, so a read through
    a pointer to a released container has no result instead of an arbitrary one.  The
    key, type and pointer arrays of an object are one list (their allocation is not
    modelled).  Copy-on-write is off in every object (setCopyOnWrite is not called): a
    container has one owner.  A method that changes containers in place is modelled as
    releasing the old containers and allocating the new ones. *)
From Coq Require Import ZArith List Bool Lia.
From Verif Require Import Base ArrayUtil BitUtil BitsetC ArrayC RunC RunD Convert Containers RArray RBinary RPoint RQuery Spec SpecI SpecCpp Obs DerivedS Hist.
From Verif Require Iter IterP DerivedI.
Import ListNotations.
Local Open Scope Z_scope.
Local Opaque zr.

(** ** Code: objects *)
(** container blocks by address; None: not allocated *)
Definition blocks := list (option container).
Definition rd (m : blocks) (p : nat) : option container := nth p m None.
(** keys and container pointers of a roaring_array_t (roaring_array.h:38-46); the type of
    a container goes with the block *)
Notation obj := (list (Z * nat)).
(** all containers, as a method reads them *)
Fixpoint load (m : blocks) (o : obj) : option bitmap :=
  match o with
  | [] => Some []
  | (k, p) :: t => match rd m p, load m t with Some c, Some r => Some ((k, c) :: r) | _, _ => None end
  end.
(** one new block per container *)
Fixpoint alloc (m : blocks) (r : bitmap) : blocks * obj :=
  match r with
  | [] => (m, [])
  | (k, c) :: t => let '(m', o) := alloc (m ++ [Some c]) t in (m', (k, length m) :: o)
  end.
(** containers.c:47-65 container_free; releasing twice has no result *)
Definition container_free (m : blocks) (p : nat) : option blocks := match rd m p with Some _ => Some (upd p None m) | None => None end.
(** roaring_array.c:169-173 ra_clear_containers *)
Fixpoint ra_clear_containers (m : blocks) (o : obj) : option blocks :=
  match o with [] => Some m | (_, p) :: t => match container_free m p with Some m' => ra_clear_containers m' t | None => None end end.
(** roaring_array.c:151-164: the loop of ra_overwrite that clones every container of the
    source (container_clone, containers.c:206-225) *)
Fixpoint clone_all (m : blocks) (src : obj) : option (blocks * obj) :=
  match src with
  | [] => Some (m, [])
  | (k, p) :: t =>
    match rd m p with
    | Some c => match clone_all (m ++ [Some c]) t with Some (m', o) => Some (m', (k, length m) :: o) | None => None end
    | None => None
    end
  end.
(** roaring.c:512-517 roaring_bitmap_overwrite, roaring_array.c:126-167 ra_overwrite with
    copy_on_write false: the containers of the destination are released first.  When
    destination and source are the same array, [src] is [dest]. *)
Definition roaring_bitmap_overwrite (m : blocks) (dest src : obj) : option (blocks * obj) :=
  match ra_clear_containers m dest with
  | Some m1 => match src with [] => Some (m1, []) | _ => clone_all m1 src end
  | None => None
  end.
(** the memory and the objects; None: not alive *)
Record mach := Mach { mm : blocks; mo : nat -> option obj }.
Definition own (st : mach) (i : nat) : obj := match mo st i with Some o => o | None => [] end.
(** roaring.c:529-531 roaring_bitmap_clear, roaring_array.c:175-179 ra_reset *)
Definition clear (d : nat) (st : mach) : option mach :=
  match ra_clear_containers (mm st) (own st d) with Some m => Some (Mach m (put (mo st) d (Some []))) | None => None end.
(** the object d takes the (new) containers of r *)
Definition take (d : nat) (r : bitmap) (st : mach) : mach :=
  let '(m, o) := alloc (mm st) r in Mach m (put (mo st) d (Some o)).
(** values of the objects a method mentions *)
Fixpoint load_names (st : mach) (ns : list nat) : option heap :=
  match ns with
  | [] => Some empty_heap
  | i :: t =>
    match mo st i with
    | Some o => match load (mm st) o, load_names st t with Some r, Some h => Some (put h i r) | _, _ => None end
    | None => None
    end
  end.
(** assert(x1 != x2), roaring.c:1076 and 1230 *)
Definition asserts (c : cmd) : bool :=
  match c with KXorInplace d s | KAndnotInplace d s => negb (Nat.eqb d s) | _ => true end.
(** A method (roaring.hh:200-872), each a call of the C function of the same name
    modelled in Hist.v ([step]).  The operators with a new result (759-804), fastunion
    (856-872) and readSafe (680-687) build a temporary from the C result (104-106), which
    is moved into d. *)
Definition call (c : cmd) (ora : oracle) (st : mach) : option (mach * out) :=
  match load_names st (mentions c) with
  | Some h =>
    if asserts c then
      let '(h', a) := step c ora h in
      match writes c with
      | Some d => match clear d st with Some st' => Some (take d (h' d) st', a) | None => None end
      | None => Some (st, a)
      end
    else None
  | None => None
  end.
Definition obj_step (c : ocmd) (ora : oracle) (st : mach) : option (mach * out) :=
  match c with
  (* 78-82 *)
  | ODefault d => Some (Mach (mm st) (put (mo st) d (Some [])), RNone)
  (* 87-96: add_many on an empty bitmap *)
  | OList d vals => Some (take d (roaring_bitmap_add_many [] vals) st, RNone)
  (* 112-118: overwrite of an empty bitmap *)
  | OCopy d s =>
    match roaring_bitmap_overwrite (mm st) [] (own st s) with
    | Some (m, o) => Some (Mach m (put (mo st) d (Some o)), RNone)
    | None => None
    end
  (* 124-133 *)
  | OMove d s => Some (Mach (mm st) (put (put (mo st) d (mo st s)) s (Some [])), RNone)
  (* 154-161: no test for self-assignment *)
  | OAssign d s =>
    match roaring_bitmap_overwrite (mm st) (own st d) (own st s) with
    | Some (m, o) => Some (Mach m (put (mo st) d (Some o)), RNone)
    | None => None
    end
  (* 167-176 *)
  | OMoveAssign d s =>
    match clear d st with
    | Some st' => Some (Mach (mm st') (put (put (mo st') d (mo st' s)) s (Some [])), RNone)
    | None => None
    end
  (* 181-185: move assignment from a temporary *)
  | OAssignList d vals =>
    match clear d st with Some st' => Some (take d (roaring_bitmap_add_many [] vals) st', RNone) | None => None end
  (* 373 *)
  | OSwap d s => Some (Mach (mm st) (put (put (mo st) d (mo st s)) s (mo st d)), RNone)
  (* 878-880 *)
  | ODestroy d =>
    match ra_clear_containers (mm st) (own st d) with Some m => Some (Mach m (put (mo st) d None), RNone) | None => None end
  | OCall c => call c ora st
  end.
Fixpoint obj_run (p : list (ocmd * oracle)) (st : mach) : option (mach * list out) :=
  match p with
  | [] => Some (st, [])
  | (c, ora) :: p' =>
    match obj_step c ora st with
    | Some (st1, a) => match obj_run p' st1 with Some (st2, l) => Some (st2, a :: l) | None => None end
    | None => None
    end
  end.
Definition obj_start : mach := Mach [] (fun _ => None).

(** ** Code: iterators *)
Import Iter.
(** RoaringSetBitBiDirectionalIterator (922-1018): the object whose bitmap is i.parent,
    and the other fields of i *)
Record cit := Cit { c_par : nat; c_it : iter }.
(** the objects with their bitmaps (None: dead), the iterators, and the function-local
    static of end() (1024-1027): None before its first call *)
Record imach := IM { i_objs : nat -> option bitmap; i_its : nat -> option cit; i_end : option cit }.
(** 931-941, exhausted; INT32_MAX and UINT32_MAX; the other fields are zero (1015) *)
Definition exhausted (o : nat) : cit := Cit o (Iter (2 ^ 31 - 1) false (2 ^ 32 - 1) 0 0 (CArr [])).
(** 1024-1027 end(): the static is constructed by the first call; afterwards every call,
    on whatever object, returns a reference to it *)
Definition end_ (o : nat) (st : imach) : cit := match i_end st with Some e => e | None => exhausted o end.
(** a C iterator function applied to an iterator: reads i.parent *)
Definition on_it (st : imach) (x : cit) (f : bitmap -> iter -> option iter) : option cit :=
  match i_objs st (c_par x) with
  | Some r => match f r (c_it x) with Some it => Some (Cit (c_par x) it) | None => None end
  | None => None
  end.
Definition set_it (st : imach) (i : nat) (x : option cit) : option imach :=
  match x with Some y => Some (IM (i_objs st) (put (i_its st) i (Some y)) (i_end st)) | None => None end.
(** 948-970, 1007-1013 *)
Definition cmp_op (k : cmp) (a b : iter) : bool :=
  match k with
  | CLt => if negb (it_has a) then false else if negb (it_has b) then true else it_cur a <? it_cur b
  | CLe => if negb (it_has b) then true else if negb (it_has a) then false else it_cur a <=? it_cur b
  | CGt => if negb (it_has b) then false else if negb (it_has a) then true else it_cur b <? it_cur a
  | CGe => if negb (it_has a) then true else if negb (it_has b) then false else it_cur b <=? it_cur a
  | CEq => (it_cur a =? it_cur b) && Bool.eqb (it_has a) (it_has b)
  | CNe => negb (it_cur a =? it_cur b) || negb (Bool.eqb (it_has a) (it_has b))
  end.
(** a call of end() leaves the static constructed *)
Definition touch_end (o : nat) (st : imach) : imach := IM (i_objs st) (i_its st) (Some (end_ o st)).
Definition it_step (c : jcmd) (st : imach) : option (imach * out) :=
  match c with
  (* 1020-1022 *)
  | JBegin i o =>
    match i_objs st o with
    | Some r => match roaring_iterator_init r with Some it => option_map (fun s => (s, RNone)) (set_it st i (Some (Cit o it))) | None => None end
    | None => None
    end
  | JEnd i o => option_map (fun s => (s, RNone)) (set_it (touch_end o st) i (Some (end_ o st)))
  (* 972-975; 977-981 moves the iterator alike *)
  | JInc i => match i_its st i with Some x => option_map (fun s => (s, RNone)) (set_it st i (on_it st x roaring_uint32_iterator_advance)) | None => None end
  (* 996-999; 1001-1005 *)
  | JDec i => match i_its st i with Some x => option_map (fun s => (s, RNone)) (set_it st i (on_it st x roaring_uint32_iterator_previous)) | None => None end
  (* 987-989 *)
  | JSeek i v =>
    match i_its st i with
    | Some x => match on_it st x (fun r it => roaring_uint32_iterator_move_equalorlarger r it v) with
                | Some y => option_map (fun s => (s, RBool (it_has (c_it y)))) (set_it st i (Some y))
                | None => None
                end
    | None => None
    end
  | JDecEnd o =>
    match on_it st (end_ o st) roaring_uint32_iterator_previous with
    | Some e => Some (IM (i_objs st) (i_its st) (Some e), RNone)
    | None => None
    end
  (* 946 *)
  | JRead i => match i_its st i with Some x => Some (st, RNum (it_cur (c_it x))) | None => None end
  | JCmp k i j => match i_its st i, i_its st j with Some x, Some y => Some (st, RBool (cmp_op k (c_it x) (c_it y))) | _, _ => None end
  | JCmpEnd k i o => match i_its st i with Some x => Some (touch_end o st, RBool (cmp_op k (c_it x) (c_it (end_ o st)))) | None => None end
  | JDestroy o => Some (IM (put (i_objs st) o None) (i_its st) (i_end st), RNone)
  end.
Fixpoint it_run (p : list jcmd) (st : imach) : option (imach * list out) :=
  match p with
  | [] => Some (st, [])
  | c :: p' =>
    match it_step c st with
    | Some (st1, a) => match it_run p' st1 with Some (st2, l) => Some (st2, a :: l) | None => None end
    | None => None
    end
  end.
(** for (auto i = r.begin(); i != r.end(); ++i) body( *i): the values passed to the body;
    this is user code *)
Fixpoint for_loop (fuel : nat) (st : imach) (o : nat) (x : cit) : option (list Z) :=
  match fuel with
  | O => None
  | S f =>
    if cmp_op CNe (c_it x) (c_it (end_ o st)) then
      match on_it st x roaring_uint32_iterator_advance with
      | Some y => option_map (cons (it_cur (c_it x))) (for_loop f st o y)
      | None => None
      end
    else Some []
  end.
Definition range_for (fuel : nat) (st : imach) (o : nat) : option (list Z) :=
  match i_objs st o with
  | Some r => match roaring_iterator_init r with Some it => for_loop fuel st o (Cit o it) | None => None end
  | None => None
  end.
