(** Independent specification vocabulary for the refinement stencils. *)
From Coq Require Import Reals List.
From Verif Require Import Stencil.
Import ListNotations.
Open Scope R_scope.

(** Squared distance to the origin *)
Definition norm2_2 (p : R * R) : R := fst p * fst p + snd p * snd p.
Definition norm2_3 (p : vec) : R := let '(x, y, z) := p in x * x + y * y + z * z.

(** The simplex is not flat: the vectors from the first vertex to the others are
    linearly independent. *)
Definition full_triangle (s : list (R * R)) : Prop :=
  match s with
  | [p; q; r] => forall a b : R,
      a * (fst q - fst p) + b * (fst r - fst p) = 0 -> a * (snd q - snd p) + b * (snd r - snd p) = 0 -> a = 0 /\ b = 0
  | _ => False
  end.
Definition full_tetrahedron (s : list vec) : Prop :=
  match s with
  | [p; q; r; t] => forall a b c : R,
      vplus (vplus (vscale a (vplus q (vscale (-1) p))) (vscale b (vplus r (vscale (-1) p)))) (vscale c (vplus t (vscale (-1) p))) = (0, 0, 0) ->
      a = 0 /\ b = 0 /\ c = 0
  | _ => False
  end.

(** What QR decomposition by one reflection guarantees for a non-zero column:
    [Q] is symmetric and orthogonal ([Q Q = 1]) and [Q (r00, 0, 0)] is the
    column. *)
Definition qr_ok (qr : vec -> mat * R) : Prop := forall a, a <> (0, 0, 0) ->
  let '(q, r00) := qr a in
  (forall x y, dot (mv q x) y = dot x (mv q y)) /\
  (forall x, mv q (mv q x) = x) /\
  mv q (r00, 0, 0) = a.
