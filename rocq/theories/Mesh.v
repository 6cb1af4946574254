(** Model of nodefinder/search/_mesh_helper.py and of the mesh stencil in
    nodefinder/search/refinement_stencil.py (exact arithmetic). *)
From Verif Require Import Base CoordSys.
Open Scope Qc_scope.

(** [np.linspace(lower, upper, m, endpoint=endpoint)] for [m >= 0] *)
Definition linspace (lower upper : Qc) (m : nat) (endpoint : bool) : list Qc :=
  let div := if endpoint then (Z.of_nat m - 1)%Z else Z.of_nat m in
  let step := (upper - lower) / qc div in
  map (fun i => qc (Z.of_nat i) * step + lower) (seq 0 m).

(** the tolerance of [np.allclose(v, 0)] (absolute part, 1e-8) *)
Definition allclose_tol : Qc := Q2Qc (1 # 100000000).
Definition allclose0 (v : point) : bool := forallb (fun x => leb (qabs x) allclose_tol) v.

(** _mesh_helper.py:37-39: [simplex_stencil], zeros except for one distance per
    row *)
Definition simplex_stencil (ds : point) : list point :=
  let n := length ds in
  repeat 0 n :: map (fun i => map (fun j => if (i =? j)%nat then nth i ds 0 else 0) (seq 0 n)) (seq 0 n).
(** _mesh_helper.py:40 [v + simplex_stencil] *)
Definition mesh_simplex (ds v : point) : list point := map (vadd v) (simplex_stencil ds).

(** _mesh_helper.py:25-34: mesh vertices *)
Definition mesh_vertices (limits : list (Qc * Qc)) (mesh_size : list nat) (periodic : bool) : list point :=
  product (map2 (fun l m => linspace (fst l) (snd l) m (negb periodic)) limits mesh_size).
(** _mesh_helper.py:35-36 *)
Definition simplex_distances (limits : list (Qc * Qc)) (mesh_size : list nat) : list Qc :=
  map2 (fun l m => (snd l - fst l) / (qc 2 * qc (Z.of_nat m))) limits mesh_size.

(** _mesh_helper.py:14-40 [_generate_mesh_simplices] *)
Definition generate_mesh_simplices (limits : list (Qc * Qc)) (mesh_size : list nat) (periodic skip_origin : bool)
    : res (list (list point)) :=
  if negb (length mesh_size =? length limits)%nat then Err ValueError
  else
    let vertices := mesh_vertices limits mesh_size periodic in
    let vertices := if skip_origin then filter (fun v => negb (allclose0 v)) vertices else vertices in
    Ok (map (mesh_simplex (simplex_distances limits mesh_size)) vertices).

(** refinement_stencil.py:18-36 [get_mesh_stencil] *)
Definition get_mesh_stencil (mesh_size : list nat) (dist_multiplier : Qc) : res (list (list point)) :=
  generate_mesh_simplices (repeat (- dist_multiplier, dist_multiplier) (length mesh_size)) mesh_size false true.

(** refinement_stencil.py:39-53 [get_auto_stencil] in dimensions other than two
    and three *)
Definition get_auto_mesh_stencil (dim : nat) : res (list (list point)) :=
  get_mesh_stencil (repeat 3%nat dim) (Q2Qc (5 # 2)).
