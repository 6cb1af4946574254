(** Model of the circle and sphere stencils of
    nodefinder/search/refinement_stencil.py, over the real numbers.
    Simplification: exact reals instead of doubles. *)
From Coq Require Import Reals List Lia Lra.
Import ListNotations.
Open Scope R_scope.

(** refinement_stencil.py:67-70: the simplex before rotation *)
Definition circle_simplex (num_points : nat) : list (R * R) :=
  [ (0 * 5 / INR num_points + 0, 0 * 5 / INR num_points + 1.5);
    ((1 / 2) * 5 / INR num_points + 0, (sqrt 3 / 2) * 5 / INR num_points + 1.5);
    ((- 1 / 2) * 5 / INR num_points + 0, (sqrt 3 / 2) * 5 / INR num_points + 1.5) ].
(** refinement_stencil.py:73-76: rotation matrix times vector *)
Definition rotate (phi : R) (p : R * R) : R * R :=
  (cos phi * fst p + - sin phi * snd p, sin phi * fst p + cos phi * snd p).
(** refinement_stencil.py:66, [np.linspace(0, 2 * np.pi, num_points, endpoint=False)] *)
Definition circle_angle (num_points i : nat) : R := INR i * ((2 * PI - 0) / INR num_points) + 0.
(** refinement_stencil.py:56-77 [get_circle_stencil] *)
Definition get_circle_stencil (num_points : nat) : list (list (R * R)) :=
  map (fun i => map (rotate (circle_angle num_points i)) (circle_simplex num_points)) (seq 0 num_points).

(** Vectors and matrices (rows) in three dimensions *)
Definition vec : Type := R * R * R.
Definition mat : Type := vec * vec * vec.
Definition dot (a b : vec) : R := let '(x, y, z) := a in let '(u, v, w) := b in x * u + y * v + z * w.
Definition vplus (a b : vec) : vec := let '(x, y, z) := a in let '(u, v, w) := b in (x + u, y + v, z + w).
Definition vscale (c : R) (a : vec) : vec := let '(x, y, z) := a in (c * x, c * y, c * z).
Definition mv (m : mat) (v : vec) : vec := let '(a, b, c) := m in (dot a v, dot b v, dot c v).
Definition mscale (c : R) (m : mat) : mat := let '(x, y, z) := m in (vscale c x, vscale c y, vscale c z).
(** matrix with the given first column, zero otherwise *)
Definition col_matrix (v : vec) : mat := let '(x, y, z) := v in ((x, 0, 0), (y, 0, 0), (z, 0, 0)).
(** [np.sign] *)
Definition sign (x : R) : R := if Rlt_dec x 0 then -1 else if Rlt_dec 0 x then 1 else 0.

(** refinement_stencil.py:109-126 [_fibonacci_sphere_points] *)
Definition fibonacci_point (num_points i : nat) : vec :=
  let offset := 2 / INR num_points in
  let increment := PI * (3 - sqrt 5) in
  let z := (INR i + 0.5) * offset - 1 in
  let rho := sqrt (1 - z * z) in
  let phi := INR ((i + 1) mod num_points) * increment in
  (cos phi * rho, sin phi * rho, z).
Definition fibonacci_sphere_points (num_points : nat) : list vec := map (fibonacci_point num_points) (seq 0 num_points).

Section Sphere.
  (** [scipy.linalg.qr], restricted to matrices whose second and third column
      vanish: first column |-> (Q, R[0,0]) *)
  Variable qr : vec -> mat * R.

  (** refinement_stencil.py:92-94: corners before rotation *)
  Definition sphere_simplex (num_points : nat) : list vec :=
    let edge := 3 / sqrt (INR num_points) in
    [ (0, 0, 0);
      ((0.25 + 0.75 * 1) * edge, (0.25 + 0.75 * 0) * edge, (0.25 + 0.75 * 0) * edge);
      ((0.25 + 0.75 * 0) * edge, (0.25 + 0.75 * 1) * edge, (0.25 + 0.75 * 0) * edge);
      ((0.25 + 0.75 * 0) * edge, (0.25 + 0.75 * 0) * edge, (0.25 + 0.75 * 1) * edge) ].
  (** refinement_stencil.py:95-96 and 102-103: orthogonal matrix mapping the
      first unit vector to the direction of [v] *)
  Definition signed_q (v : vec) : mat := let '(q, r00) := qr v in mscale (sign r00) q.
  (** refinement_stencil.py:80-106 [get_sphere_stencil] *)
  Definition get_sphere_stencil (num_points : nat) : list (list vec) :=
    let points := map (vscale 1.1) (fibonacci_sphere_points num_points) in
    let simplex := map (mv (signed_q (1, 1, 1))) (sphere_simplex num_points) in
    map (fun pos => map (fun p => vplus (mv (signed_q pos) p) pos) simplex) points.
End Sphere.

(** LAPACK's QR decomposition (dgeqrf/dlarfg) of a matrix with one non-zero
    column: one Householder reflection, or the identity if the column is already
    a multiple of the first unit vector. *)
Definition lapack_qr (a : vec) : mat * R :=
  let '(a0, a1, a2) := a in
  if Req_EM_T (a1 * a1 + a2 * a2) 0 then (((1, 0, 0), (0, 1, 0), (0, 0, 1)), a0)
  else
    let nrm := sqrt (a0 * a0 + a1 * a1 + a2 * a2) in
    let beta := if Rle_dec 0 a0 then - nrm else nrm in
    let tau := (beta - a0) / beta in
    let v1 := a1 / (a0 - beta) in
    let v2 := a2 / (a0 - beta) in
    (((1 - tau, - tau * v1, - tau * v2),
      (- tau * v1, 1 - tau * v1 * v1, - tau * v1 * v2),
      (- tau * v2, - tau * v1 * v2, 1 - tau * v2 * v2)), beta).
