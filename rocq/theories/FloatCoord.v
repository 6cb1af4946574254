(** Model, in IEEE double precision, of nodefinder/coordinate_system.py: what Float.v, FloatVector.v and
    FloatCell.v (remainder, distance, connecting vector) leave out. *)
From Coq Require Import ZArith List.
From Flocq Require Import Core BinarySingleNaN.
From Verif Require Import Base CoordSys Float FloatVector FloatMin FloatCell.
Import ListNotations.
Open Scope list_scope.

(** coordinate_system.py:36 [sorted(x)] for the two limits of one coordinate (sorting compares the
    second with the first) *)
Definition fsorted (x : double * double) : fbox := if flt (snd x) (fst x) then (snd x, fst x) else x.
(** coordinate_system.py:35-39 [__init__]: the limits *)
Definition fcoord_limits (limits : list (double * double)) : list fbox := map fsorted limits.
(** coordinate_system.py:55-62 [get_frac] *)
Definition fget_frac_position (per : bool) (boxes : list fbox) (p : fpoint) : fpoint := map2 (fget_frac1 per) boxes p.
(** coordinate_system.py:64-68 [get_pos] *)
Definition fget_pos1 (b : fbox) (f : double) : double := fadd (fmul f (fsize (fst b) (snd b))) (fst b).
Definition fget_pos (boxes : list fbox) (frac : fpoint) : fpoint := map2 fget_pos1 boxes frac.
(** coordinate_system.py:105-114 [normalize_position] *)
Definition fnormalize_position (per : bool) (boxes : list fbox) (p : fpoint) : fpoint := map2 (fnormalize1 per) boxes p.
