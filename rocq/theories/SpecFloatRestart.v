(** What the theorems about repeated restarts (C75) speak about. *)
From Coq Require Import ZArith Reals List Permutation.
From Flocq Require Import Core BinarySingleNaN.
From Verif Require Import Base CoordSys CellList Queue Float FloatVector FloatMin FloatCell SpecFloatCell FloatController SpecFloatSearch SpecFloatRun.
Import ListNotations.
Open Scope list_scope.

(** [k] is a moment of a search that was started with the state [s] (with the results [rs]) and
    then restarted any number of times, each time from the state of the search before, at any
    moment; [found] are the results it was given and those of all minimizations since, in order *)
Inductive sessions (g : fconfig) (s : fstate) (rs : list dmin_result) : nat -> list dmin_result -> fctrl -> Prop :=
| se_first k : freaches g s k -> sessions g s rs 0 (rs ++ map snd (frecorded (fk_log k))) k
| se_restart n found k order mesh force s' k' : sessions g s rs n found k ->
    (forall l, Permutation (order l) l) -> Forall (Forall (good_position (fg_boxes g))) mesh -> NoDup (map norm_fsimplex mesh) ->
    fcreate_state (fg_per g) (fg_boxes g) (fg_gap g) (fg_cutoff g) order (Some (fk_state k)) mesh force = Ok s' -> freaches g s' k' ->
    sessions g s rs (S n) (found ++ map snd (frecorded (fk_log k'))) k'.

(** the nodes and the rejected results of a search *)
Definition fnodes (k : fctrl) : list dmin_result := cl_flat (fc_nodes (fs_result (fk_state k))).
Definition frejects (k : fctrl) : list dmin_result := fc_rejected (fs_result (fk_state k)).
(** the result [m] stands for [r]: it differs in the position only, and each coordinate of its position
    is that of [r] up to a multiple of the box size and twice the error of one normalisation *)
Definition stands_for (boxes : list (double * double)) (r m : dmin_result) : Prop :=
  m = fset_pos r (dr_pos m) /\ length (dr_pos r) = length boxes /\ length (dr_pos m) = length boxes /\
  forall i b x y, nth_error boxes i = Some b -> nth_error (dr_pos r) i = Some x -> nth_error (dr_pos m) i = Some y ->
    exists j : Z, (Rabs (B2R y - (B2R x + IZR j * fbox_size b)) <= 2 * norm_error b)%R.
