(** Specification vocabulary for the coordinate system in double precision (C78). *)
From Coq Require Import ZArith Reals List.
From Flocq Require Import Core BinarySingleNaN.
From Verif Require Import Base Float FloatVector FloatMin FloatCell SpecFloatCell.
Import ListNotations.
Open Scope list_scope.
Open Scope R_scope.

(** the exact size of a box, and how large its limits are *)
Definition width (b : double * double) : R := B2R (snd b) - B2R (fst b).
Definition magnitude (b : double * double) : R := Rabs (B2R (fst b)) + Rabs (B2R (snd b)).
(** allowance for rounding, one coordinate *)
Definition coord_error (b : double * double) : R := bpow radix2 (-38) * width b + bpow radix2 (-50) * magnitude b.
(** [z] is [x], up to rounding; up to rounding and a multiple of the size of the box *)
Definition close_to (b : double * double) (x z : double) : Prop := Rabs (B2R z - B2R x) <= coord_error b.
Definition image_of (b : double * double) (x z : double) : Prop := exists k, Rabs (B2R z - B2R x - IZR k * width b) <= coord_error b.
(** finite, not below the lower limit and not above the upper one by more than rounding explains *)
Definition inside (b : double * double) (z : double) : Prop :=
  is_finite z = true /\ B2R (fst b) <= B2R z <= B2R (snd b) + bpow radix2 (-50) * magnitude b.
(** coordinate by coordinate *)
Inductive each (P : double * double -> double -> double -> Prop) : list (double * double) -> list double -> list double -> Prop :=
| each_nil : each P [] [] []
| each_cons b x z boxes p q : P b x z -> each P boxes p q -> each P (b :: boxes) (x :: p) (z :: q).
