(** Property theorem C17 in two and three dimensions (circle and sphere). *)
From Coq Require Import Reals List Lia Lra.
From Verif Require Import Stencil SpecStencil StencilFacts.
From Coq Require Import Lra.
Import ListNotations.
Open Scope R_scope.

(** every vertex of the circle stencil, scaled by the cutoff, is more than one cutoff
    away from the centre; the triangles are not flat.  The default has 5 points. *)
Theorem C17_circle_stencil : forall num_points cutoff, (1 <= num_points)%nat -> 0 < cutoff ->
  length (get_circle_stencil num_points) = num_points /\
  forall s, In s (get_circle_stencil num_points) -> length s = 3%nat /\ full_triangle s /\
    forall p, In p s -> cutoff * cutoff < norm2_2 (cutoff * fst p, cutoff * snd p).
Proof. intros n c Hn Hc. split; [apply circle_count|]. intros s Hs. destruct (circle_vertices n s Hn Hs) as (L & F & T).
  split; [auto|]. split; [auto|]. intros [x y] Hp. rewrite Forall_forall in F. specialize (F _ Hp). unfold norm2_2 in *. cbn [fst snd] in *.
  assert (0 < c * c) by nra. nra. Qed.
Print Assumptions C17_circle_stencil.

(** the same for the sphere stencil, for any QR decomposition by reflections *)
Theorem C17_sphere_stencil : forall qr num_points cutoff, qr_ok qr -> (1 <= num_points)%nat -> 0 < cutoff ->
  length (get_sphere_stencil qr num_points) = num_points /\
  forall s, In s (get_sphere_stencil qr num_points) -> length s = 4%nat /\ full_tetrahedron s /\
    forall p, In p s -> cutoff * cutoff < norm2_3 (vscale cutoff p).
Proof. intros qr n c Q Hn Hc. split; [apply sphere_count|]. intros s Hs. destruct (sphere_vertices qr Q n s Hn Hs) as (L & F & T).
  split; [auto|]. split; [auto|]. intros [[x y] z] Hp. rewrite Forall_forall in F. specialize (F _ Hp). cbn in *. assert (0 < c * c) by nra. nra. Qed.
Print Assumptions C17_sphere_stencil.
(** LAPACK's Householder reflections are such a decomposition *)
Theorem C17_lapack_reflections : qr_ok lapack_qr.
Proof. exact lapack_qr_ok. Qed.
Print Assumptions C17_lapack_reflections.
Theorem C17_default_sphere_stencil : forall cutoff, 0 < cutoff ->
  forall s p, In s (get_sphere_stencil lapack_qr 30) -> In p s -> cutoff * cutoff < norm2_3 (vscale cutoff p).
Proof. intros c Hc s p Hs Hp. destruct (C17_sphere_stencil lapack_qr 30 c lapack_qr_ok ltac:(lia) Hc) as (_ & H). apply (H s Hs). auto. Qed.
Print Assumptions C17_default_sphere_stencil.
