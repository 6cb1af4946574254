(** Specification vocabulary for the mesh in double precision (C65). *)
From Coq Require Import ZArith Reals List.
From Flocq Require Import Core BinarySingleNaN.
From Verif Require Import Base Queue Float FloatVector FloatCell SpecFloatCell FloatController SpecFloatSearch.
Import ListNotations.
Open Scope list_scope.
Open Scope R_scope.

(** number of intervals into which [m] mesh points divide an edge *)
Definition intervals (per : bool) (m : nat) : nat := if per then m else Nat.max 1 (m - 1).
(** One positive mesh size per dimension, and mesh points at least two resolutions apart. *)
Definition resolved_mesh (boxes : list (double * double)) (mesh_size : list nat) : Prop :=
  Forall2 (fun b m => (1 <= m)%nat /\ 2 * INR m * resolution b <= fbox_size b) boxes mesh_size.

(** the exact coordinate of mesh point [i] *)
Definition exact_coord (per : bool) (b : double * double) (m i : nat) : R := B2R (fst b) + INR i * (fbox_size b / INR (intervals per m)).
(** [v] is mesh point number [i] up to rounding *)
Definition mesh_point (per : bool) (boxes : list (double * double)) (mesh_size idx : list nat) (v : list double) : Prop :=
  length idx = length boxes /\
  forall k b m i, nth_error boxes k = Some b -> nth_error mesh_size k = Some m -> nth_error idx k = Some i ->
    (i < m)%nat /\ exists x, nth_error v k = Some x /\ is_finite x = true /\ Rabs (B2R x - exact_coord per b m i) <= resolution b / 4 /\ B2R (fst b) <= B2R x <= B2R (snd b).
(** A simplex of the mesh: the mesh point and, for every dimension, the same point with only
    this coordinate increased, by half the distance of mesh points of a periodic mesh. *)
Definition mesh_simplex_at (boxes : list (double * double)) (mesh_size : list nat) (v : list double) (s : fsimplex) : Prop :=
  length s = S (length boxes) /\ Forall (fun w => length w = length boxes) s /\
  Forall2 (fun x y => B2R x = B2R y) (hd [] s) v /\
  forall k w, nth_error (tl s) k = Some w -> forall j x y, nth_error v j = Some x -> nth_error w j = Some y ->
    (j <> k -> B2R y = B2R x) /\
    (j = k -> B2R x < B2R y /\ forall b m, nth_error boxes j = Some b -> nth_error mesh_size j = Some m -> Rabs (B2R y - (B2R x + fbox_size b / (2 * INR m))) <= resolution b / 4).
(** all coordinates vanish within the tolerance (the double nearest to 1e-8) *)
Definition at_origin (v : list double) : Prop := Forall (fun x => Rabs (B2R x) <= B2R tolerance) v.
