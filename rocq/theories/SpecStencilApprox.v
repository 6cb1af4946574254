(** Independent specification vocabulary: rational points close to real ones. *)
From Coq Require Import Reals List.
From Verif Require Import Base CoordSys CoordSysR Queue Stencil.
Open Scope list_scope.
Open Scope R_scope.

(** The coordinates are within 1/100 of the exact ones. *)
Definition near_number (q : Qc) (r : R) : Prop := Rabs (Qc2R q - r) <= 1 / 100.
Definition near2 (x : point) (p : R * R) : Prop :=
  match x with [a; b] => near_number a (fst p) /\ near_number b (snd p) | _ => False end.
Definition near3 (x : point) (p : vec) : Prop :=
  let '(u, v, w) := p in match x with [a; b; c] => near_number a u /\ near_number b v /\ near_number c w | _ => False end.
(** Rational stencils (numbers as the program computes them) close to the exact ones. *)
Definition near_circle (n : nat) (st : list simplex) : Prop := Forall2 (Forall2 near2) st (get_circle_stencil n).
Definition near_sphere (qr : vec -> mat * R) (n : nat) (st : list simplex) : Prop := Forall2 (Forall2 near3) st (get_sphere_stencil qr n).
