(** SpecCpp: programs over C++ bitmap objects and their iterators, as programs over sets
    and positions; no reference to the model. *)
From Coq Require Import ZArith List Bool.
From Verif Require Import Spec SpecI.
Import ListNotations.
Local Open Scope Z_scope.

(** ** Objects.  An object has a name; it is not alive before its construction and after
    its destruction. *)
Inductive ocmd : Type :=
(* constructions: Roaring d; Roaring d{vals}; Roaring d(s); Roaring d(std::move(s)) *)
| ODefault (d : nat) | OList (d : nat) (vals : list Z) | OCopy (d s : nat) | OMove (d s : nat)
(* d = s; d = std::move(s); d = {vals}; d.swap(s) *)
| OAssign (d s : nat) | OMoveAssign (d s : nat) | OAssignList (d : nat) (vals : list Z) | OSwap (d s : nat)
| ODestroy (d : nat)
(* a method; the commands with a result in a new set stand for d = s op t *)
| OCall (c : cmd).
Definition osets := nat -> option zset.
Definition alive (S : osets) (i : nat) : Prop := S i <> None.
Definition sets (S : osets) : regs := fun i => match S i with Some P => P | None => zempty end.
(** objects a method reads or writes *)
Definition mentions (c : cmd) : list nat :=
  match c with
  | KNew d | KOf d _ | KFromRange d _ _ _ => [d]
  | KAdd d _ | KAddChecked d _ | KRemove d _ | KRemoveChecked d _ | KAddMany d _ | KRemoveMany d _ => [d]
  | KAddRange d _ _ | KAddRangeClosed d _ _ | KRemoveRange d _ _ | KRemoveRangeClosed d _ _ | KFlipInplace d _ _ | KFlipInplaceClosed d _ _ => [d]
  | KClear d | KRunOptimize d | KRemoveRunCompression d => [d]
  | KCopy d s | KFlip d s _ _ | KFlipClosed d s _ _ | KAddOffset d s _ | KReloadPortable d s | KReloadNative d s => [d; s]
  | KAnd d s t | KOr d s t | KXor d s t | KAndnot d s t => [d; s; t]
  | KOrMany d ss | KOrManyHeap d ss | KXorMany d ss => d :: ss
  | KAndInplace d s | KOrInplace d s | KXorInplace d s | KAndnotInplace d s => [d; s]
  | QContains s _ | QContainsRange s _ _ | QCardinality s | QRangeCardinality s _ _ | QIsEmpty s | QRank s _ | QGetIndex s _ | QSelect s _
  | QMinimum s | QMaximum s | QToArray s | QValidate s => [s]
  | QEquals s t | QSubset s t | QStrictSubset s t | QIntersect s t | QAndCardinality s t | QOrCardinality s t | QXorCardinality s t
  | QAndnotCardinality s t => [s; t]
  end.
(** the object a method writes *)
Definition writes (c : cmd) : option nat :=
  match c with
  | KNew d | KOf d _ | KFromRange d _ _ _ | KCopy d _
  | KAdd d _ | KAddChecked d _ | KRemove d _ | KRemoveChecked d _ | KAddMany d _ | KRemoveMany d _
  | KAddRange d _ _ | KAddRangeClosed d _ _ | KRemoveRange d _ _ | KRemoveRangeClosed d _ _ | KFlipInplace d _ _ | KFlipInplaceClosed d _ _
  | KClear d | KRunOptimize d | KRemoveRunCompression d
  | KFlip d _ _ _ | KFlipClosed d _ _ _ | KAddOffset d _ _ | KReloadPortable d _ | KReloadNative d _
  | KAnd d _ _ | KOr d _ _ | KXor d _ _ | KAndnot d _ _ | KOrMany d _ | KOrManyHeap d _ | KXorMany d _
  | KAndInplace d _ | KOrInplace d _ | KXorInplace d _ | KAndnotInplace d _ => Some d
  | _ => None
  end.
(** what the class offers *)
Definition method (c : cmd) : bool :=
  match c with
  | KNew _ | KOf _ _ | KFromRange _ _ _ _ | KCopy _ _ | KRemoveMany _ _ | KFlip _ _ _ _ | KFlipClosed _ _ _ _ | KOrManyHeap _ _ | KXorMany _ _
  | KAddOffset _ _ _ | KReloadNative _ _ | QRangeCardinality _ _ _ | QValidate _ => false
  | _ => true
  end.
(** effect of a command on the sets *)
Definition ostep (c : ocmd) (S : osets) : osets :=
  match c with
  | ODefault d => put S d (Some zempty)
  | OList d vals | OAssignList d vals => put S d (Some (zlist vals))
  | OCopy d s | OAssign d s => put S d (S s)
  | OMove d s | OMoveAssign d s => put (put S d (S s)) s (Some zempty)
  | OSwap d s => put (put S d (S s)) s (S d)
  | ODestroy d => put S d None
  | OCall c => match writes c with Some d => put S d (Some (spec_step c (sets S) d)) | None => S end
  end.
Definition oout (c : ocmd) (S : osets) (o : out) : Prop := match c with OCall c => spec_out c (sets S) o | _ => o = RNone end.
(** the rules of the language and of the methods *)
Definition ook (c : ocmd) (S : osets) : Prop :=
  match c with
  | ODefault d => S d = None
  | OList d vals => S d = None /\ forall v, In v vals -> val32 v
  | OCopy d s | OMove d s => S d = None /\ alive S s
  | OAssign d s | OMoveAssign d s | OSwap d s => alive S d /\ alive S s
  | OAssignList d vals => alive S d /\ forall v, In v vals -> val32 v
  | ODestroy d => alive S d
  | OCall c => method c = true /\ Forall (alive S) (mentions c) /\ cmd_ok c (sets S)
  end.
(** no object is copy-assigned to itself, unless empty *)
Definition no_self (c : ocmd) (S : osets) : Prop :=
  match c with OAssign d s => d <> s \/ same_set (sets S d) zempty | _ => True end.
Fixpoint oprog (ok : ocmd -> osets -> Prop) (p : list ocmd) (S : osets) : Prop :=
  match p with [] => True | c :: p' => ok c S /\ oprog ok p' (ostep c S) end.
Fixpoint orun (p : list ocmd) (S : osets) : osets := match p with [] => S | c :: p' => orun p' (ostep c S) end.
Fixpoint oagrees (p : list ocmd) (S : osets) (outs : list out) : Prop :=
  match p, outs with
  | [], [] => True
  | c :: p', o :: outs' => oout c S o /\ oagrees p' (ostep c S) outs'
  | _, _ => False
  end.
Definition no_objects : osets := fun _ => None.

(** ** Iterators.  The bitmaps do not change; an iterator is a position in one of them. *)
Inductive cmp : Type := CEq | CNe | CLt | CLe | CGt | CGe.
Inductive jcmd : Type :=
(* i = o.begin(); i = o.end() *)
| JBegin (i o : nat) | JEnd (i o : nat)
(* ++i; --i; i.move_equalorlarger(x) *)
| JInc (i : nat) | JDec (i : nat) | JSeek (i : nat) (x : Z)
(* --o.end() *)
| JDecEnd (o : nat)
(* *i; i cmp j; i cmp o.end() *)
| JRead (i : nat) | JCmp (k : cmp) (i j : nat) | JCmpEnd (k : cmp) (i o : nat)
(* object o dies *)
| JDestroy (o : nat).
Definition compare (k : cmp) (x y : Z) : bool :=
  match k with CEq => x =? y | CNe => negb (x =? y) | CLt => x <? y | CLe => x <=? y | CGt => y <? x | CGe => y <=? x end.
(** an iterator: its object and its position; was it obtained from end()? *)
Record place := Place { p_obj : nat; p_pos : Z; p_end : bool }.
(** the sorted members of the objects; None: dead.  The iterators; None: not yet assigned *)
Record jstate := JS { j_objs : nat -> option (list Z); j_its : nat -> option place }.
Definition obj_alive (s : jstate) (o : nat) : Prop := j_objs s o <> None.
(** p stands in an object that is alive *)
Definition in_obj (s : jstate) (p : place) (l : list Z) : Prop := j_objs s (p_obj p) = Some l.
Definition at_it (s : jstate) (i : nat) (f : place -> list Z -> Prop) : Prop :=
  exists p l, j_its s i = Some p /\ j_objs s (p_obj p) = Some l /\ f p l.
Definition jok (c : jcmd) (s : jstate) : Prop :=
  match c with
  | JBegin _ o | JEnd _ o | JDecEnd o | JDestroy o => obj_alive s o
  | JInc i | JRead i => at_it s i (fun p l => p_pos p < len_of l)
  | JDec i => at_it s i (fun p _ => 0 < p_pos p)
  | JSeek i x => at_it s i (fun _ _ => val32 x)
  | JCmp _ i j => at_it s i (fun p _ => at_it s j (fun q _ => p_obj q = p_obj p))
  | JCmpEnd _ i o => at_it s i (fun p _ => o = p_obj p)
  end.
Definition move (s : jstate) (i : nat) (f : list Z -> Z -> Z) : jstate :=
  match j_its s i with
  | Some p => match j_objs s (p_obj p) with
              | Some l => JS (j_objs s) (put (j_its s) i (Some (Place (p_obj p) (f l (p_pos p)) (p_end p))))
              | None => s
              end
  | None => s
  end.
Definition jstep (c : jcmd) (s : jstate) : jstate :=
  match c with
  | JBegin i o => JS (j_objs s) (put (j_its s) i (Some (Place o 0 false)))
  | JEnd i o => match j_objs s o with Some l => JS (j_objs s) (put (j_its s) i (Some (Place o (len_of l) true))) | None => s end
  | JInc i => move s i (fun _ p => p + 1)
  | JDec i => move s i (fun _ p => p - 1)
  | JSeek i x => move s i (fun l _ => len_of (filter (fun v => v <? x) l))
  | JDestroy o => JS (put (j_objs s) o None) (j_its s)
  | JDecEnd _ | JRead _ | JCmp _ _ _ | JCmpEnd _ _ _ => s
  end.
Definition jout (c : jcmd) (s : jstate) (o : out) : Prop :=
  match c with
  | JRead i => at_it s i (fun p l => o = RNum (nth (Z.to_nat (p_pos p)) l 0))
  | JSeek i x => at_it s i (fun p l => o = RBool (existsb (fun v => x <=? v) l))
  | JCmp k i j => at_it s i (fun p _ => at_it s j (fun q _ => o = RBool (compare k (p_pos p) (p_pos q))))
  | JCmpEnd k i _ => at_it s i (fun p l => o = RBool (compare k (p_pos p) (len_of l)))
  | _ => o = RNone
  end.
(** what is obtained from end() is only compared or copied *)
Definition end_untouched (c : jcmd) (s : jstate) : Prop :=
  match c with
  | JInc i | JDec i | JSeek i _ => forall p, j_its s i = Some p -> p_end p = false
  | JDecEnd _ => False
  | _ => True
  end.
Fixpoint jprog (ok : jcmd -> jstate -> Prop) (p : list jcmd) (s : jstate) : Prop :=
  match p with [] => True | c :: p' => ok c s /\ jprog ok p' (jstep c s) end.
Fixpoint jrun (p : list jcmd) (s : jstate) : jstate := match p with [] => s | c :: p' => jrun p' (jstep c s) end.
Fixpoint jagrees (p : list jcmd) (s : jstate) (outs : list out) : Prop :=
  match p, outs with
  | [], [] => True
  | c :: p', o :: outs' => jout c s o /\ jagrees p' (jstep c s) outs'
  | _, _ => False
  end.
