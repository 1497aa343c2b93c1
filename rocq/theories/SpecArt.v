(** SpecArt: vocabulary of the statements about the adaptive radix tree that indexes a 64-bit
    bitmap: an ordered map from numbers below 2^48 to 64-bit values.  Nothing in this file refers
    to the model of the code. *)
From Coq Require Import ZArith List Bool Sorting.Sorted.
Import ListNotations.
Local Open Scope Z_scope.

Definition kmap := Z -> option Z.
Definition kempty : kmap := fun _ => None.
Definition kput (m : kmap) (n v : Z) : kmap := fun x => if x =? n then Some v else m x.
Definition kdrop (m : kmap) (n : Z) : kmap := fun x => if x =? n then None else m x.
Definition knum (n : Z) : Prop := 0 <= n < 2^48.
(** keys are passed as six bytes, most significant first *)
Definition key_bytes (n : Z) : list Z :=
  [n / 2^40 mod 256; n / 2^32 mod 256; n / 2^24 mod 256; n / 2^16 mod 256; n / 2^8 mod 256; n mod 256].
Definition key_number (k : list Z) : Z := fold_left (fun acc b => acc * 256 + b) k 0.

(** [l] is the first [k] entries, in increasing order of keys, among those whose key satisfies [Q]:
    sorted, correct, and whatever is missing comes later *)
Definition first_of (m : kmap) (Q : Z -> Prop) (k : nat) (l : list (Z * Z)) : Prop :=
  StronglySorted Z.lt (map fst l) /\ (length l <= k)%nat /\
  (forall n v, In (n, v) l -> knum n /\ Q n /\ m n = Some v) /\
  (forall n v, knum n -> Q n -> m n = Some v -> ~ In (n, v) l -> length l = k /\ forall e, In e l -> fst e < n).
(** the last [k] entries, in decreasing order of keys *)
Definition last_of (m : kmap) (k : nat) (l : list (Z * Z)) : Prop :=
  StronglySorted Z.gt (map fst l) /\ (length l <= k)%nat /\
  (forall n v, In (n, v) l -> knum n /\ m n = Some v) /\
  (forall n v, knum n -> m n = Some v -> ~ In (n, v) l -> length l = k /\ forall e, In e l -> n < fst e).

Inductive acmd : Type :=
| APut (n v : Z)                     (* insert the key, or overwrite its value *)
| AErase (n : Z)
| AFind (n : Z)
| AIsEmpty
| AFirst (k : nat)                   (* walk forward from the first entry *)
| ALast (k : nat)                    (* walk backward from the last entry *)
| ALower (n : Z) (k : nat)           (* walk forward from the first key >= n *)
| AUpper (n : Z) (k : nat)           (* walk forward from the first key > n *)
| AInsertHere (n v : Z) (k : nat)    (* insert a new key through an iterator and walk on from it *)
| AEraseFrom (n : Z) (k : nat).      (* erase k entries through an iterator, from the first key >= n *)
Inductive aout : Type := ONone | OBool (b : bool) | OVal (o : option Z) | OEntries (l : list (Z * Z)).

Definition acmd_ok (c : acmd) : Prop :=
  match c with
  | APut n _ | AErase n | AFind n | ALower n _ | AUpper n _ | AInsertHere n _ _ | AEraseFrom n _ => knum n
  | _ => True
  end.
(** [astep c m m' o]: from the map [m] the call may lead to [m'] and answer [o] *)
Definition astep (c : acmd) (m m' : kmap) (o : aout) : Prop :=
  match c with
  | APut n v => o = ONone /\ forall x, knum x -> m' x = kput m n v x
  | AErase n => o = OVal (m n) /\ forall x, knum x -> m' x = kdrop m n x
  | AFind n => o = OVal (m n) /\ forall x, knum x -> m' x = m x
  | AIsEmpty => (exists b, o = OBool b /\ (b = true <-> forall x, knum x -> m x = None)) /\ forall x, knum x -> m' x = m x
  | AFirst k => (exists l, o = OEntries l /\ first_of m (fun _ => True) k l) /\ forall x, knum x -> m' x = m x
  | ALast k => (exists l, o = OEntries l /\ last_of m k l) /\ forall x, knum x -> m' x = m x
  | ALower n k => (exists l, o = OEntries l /\ first_of m (fun x => n <= x) k l) /\ forall x, knum x -> m' x = m x
  | AUpper n k => (exists l, o = OEntries l /\ first_of m (fun x => n < x) k l) /\ forall x, knum x -> m' x = m x
  | AInsertHere n v k =>
      match m n with
      | Some w => o = OVal (Some w) /\ forall x, knum x -> m' x = m x
      | None => (exists l, o = OEntries l /\ first_of m' (fun x => n <= x) k l) /\ forall x, knum x -> m' x = kput m n v x
      end
  | AEraseFrom n k => exists l, o = OEntries l /\ first_of m (fun x => n <= x) k l /\
      forall x, knum x -> m' x = if existsb (fun e => fst e =? x) l then None else m x
  end.
Fixpoint arun (cs : list acmd) (m m' : kmap) (outs : list aout) : Prop :=
  match cs, outs with
  | [], [] => forall x, knum x -> m' x = m x
  | c :: cs, o :: outs => exists m1, astep c m m1 o /\ arun cs m1 m' outs
  | _, _ => False
  end.
