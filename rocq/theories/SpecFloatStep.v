(** Nelder-Mead steps in double precision (C70): SpecStep's [nm_step] with candidates up to
    rounding. *)
From Coq Require Import ZArith Reals List.
From Flocq Require Import Core BinarySingleNaN.
From Verif Require Import Base NelderMead SpecStep Float FloatVector FloatMin SpecFloatMin.
Import ListNotations.
Open Scope list_scope.
Open Scope R_scope.

(** coordinate [j] *)
Definition rcoord (j : nat) (p : list double) : R := B2R (nth j p (B754_zero false)).
(** all coordinates are finite and at most [M] *)
Definition bounded_by (M : R) (ps : list (list double)) : Prop :=
  bpow radix2 (-400) <= M <= bpow radix2 400 /\ Forall (Forall (fun c => is_finite c = true /\ Rabs (B2R c) <= M)) ps.
(** the parameter [t] of the candidates [c + t (c - w)] *)
Definition rfactor (k : candidate) : R :=
  match k with Reflection => 1 | Expansion => 2 | Outside => / 2 | Inside => - / 2 end.
(** [y] is finite and within 2^-45 M of [c + t (c - w)], where [c] is the centroid of the
    other vertices (at most 64), if the coordinates are bounded by [M] *)
Definition fon_line (k : candidate) (others : list (list double)) (worst y : list double) : Prop :=
  length y = length worst /\
  ((length others <= 64)%nat -> forall M, bounded_by M (worst :: others) -> forall j, (j < length y)%nat ->
    is_finite (nth j y (B754_zero false)) = true /\
    let c := fold_right Rplus 0 (map (rcoord j) others) / INR (length others) in
    Rabs (rcoord j y - (c + rfactor k * (c - rcoord j worst))) <= bpow radix2 (-45) * M).
(** [y] is finite and within 2^-50 M of the middle of [x0] and [x] *)
Definition fhalfway (x0 x y : list double) : Prop :=
  length y = length x0 /\
  (forall M, bounded_by M [x0; x] -> forall j, (j < length y)%nat ->
    is_finite (nth j y (B754_zero false)) = true /\
    Rabs (rcoord j y - (rcoord j x0 + rcoord j x) / 2) <= bpow radix2 (-50) * M).
(** [y] is finite and within 2^-49 M of [x0 + 3/2 (x - x0)] *)
Definition fstretched (x0 x y : list double) : Prop :=
  length y = length x0 /\
  (forall M, bounded_by M [x0; x] -> forall j, (j < length y)%nat ->
    is_finite (nth j y (B754_zero false)) = true /\
    Rabs (rcoord j y - (rcoord j x0 + 3 / 2 * (rcoord j x - rcoord j x0))) <= bpow radix2 (-49) * M).
(** when the minimization continues *)
Definition fcontinues (p : dparams) (maxfev maxiter : nat) (a : list (list double * double)) (k i : nat) : Prop :=
  (k < maxfev)%nat /\ (i < maxiter)%nat /\
  (exists best, hd_error (map snd a) = Some best /\ dfprime_exceeded (dp_fprime p) (map fst a) best = Ok false) /\
  ~ dtolerances_met (dp_xtol p) (dp_ftol p) (map fst a) (map snd a).

(** ** The derivative estimate (C60) *)
(** the exact distance of two points *)
Definition rdistance (p q : list double) : R :=
  sqrt (fold_right Rplus 0 (map (fun xy => (B2R (fst xy) - B2R (snd xy)) ^ 2) (combine p q))).
