(** Specification vocabulary for the refinement stencils in double precision (C66). *)
From Coq Require Import ZArith Reals List.
From Flocq Require Import Core BinarySingleNaN.
From Verif Require Import Base Queue Float FloatCell SpecFloatCell FloatController SpecFloatSearch Stencil FloatMesh.
Import ListNotations.
Open Scope list_scope.
Open Scope R_scope.

(** finite doubles within 1/100 of the exact numbers *)
Definition near_double (x : double) (r : R) : Prop := is_finite x = true /\ Rabs (B2R x - r) <= 1 / 100.
Definition fnear2 (x : list double) (p : R * R) : Prop :=
  match x with [a; b] => near_double a (fst p) /\ near_double b (snd p) | _ => False end.
Definition fnear3 (x : list double) (p : vec) : Prop :=
  let '(u, v, w) := p in match x with [a; b; c] => near_double a u /\ near_double b v /\ near_double c w | _ => False end.
Definition fnear_circle (n : nat) (st : list fsimplex) : Prop := Forall2 (Forall2 fnear2) st (get_circle_stencil n).
Definition fnear_sphere (qr : vec -> mat * R) (n : nat) (st : list fsimplex) : Prop := Forall2 (Forall2 fnear3) st (get_sphere_stencil qr n).

(** The stencil of [get_auto_stencil] in dimension [dim], as computed in doubles: cosines, sines
    and QR decompositions may be inaccurate by up to 1/100. *)
Definition auto_fstencil (qr : vec -> mat * R) (dim : nat) (st : list fsimplex) : Prop :=
  match dim with
  | 2 => fnear_circle 5 st
  | 3 => fnear_sphere qr 30 st
  | _ => fget_auto_mesh_stencil dim = Ok st
  end%nat.
(** A cutoff that doubles of the size of the limits resolve, and not larger than 12 box sizes. *)
Definition resolved_cutoff (boxes : list (double * double)) (cutoff : double) : Prop :=
  Forall (fun b => 128 * resolution b <= B2R cutoff <= 12 * fbox_size b) boxes.
