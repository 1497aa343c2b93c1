(** Spec64Z: which register a call on 64-bit bitmaps changes.  Nothing in this file refers to the
    model of the code. *)
From Verif Require Import Spec SpecI Spec64.

Definition changed (c : cmd64) : option nat :=
  match c with
  | LNew d | LOf d _ | LFromRange d _ _ _ | LCopy d _ | LAdd d _ | LAddChecked d _ | LRemove d _ | LRemoveChecked d _
  | LAddMany d _ | LRemoveMany d _ | LAddRange d _ _ | LAddRangeClosed d _ _ | LRemoveRange d _ _ | LRemoveRangeClosed d _ _
  | LFlipInplace d _ _ | LFlipInplaceClosed d _ _ | LClear d | LRunOptimize d | LShrinkToFit d
  | LFlip d _ _ _ | LFlipClosed d _ _ _ | LAnd d _ _ | LOr d _ _ | LXor d _ _ | LAndnot d _ _
  | LAndInplace d _ | LOrInplace d _ | LXorInplace d _ | LAndnotInplace d _ => Some d
  | _ => None
  end.
