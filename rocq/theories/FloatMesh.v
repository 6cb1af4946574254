(** Model, in IEEE double precision, of nodefinder/search/_mesh_helper.py and of the mesh stencil
    of nodefinder/search/refinement_stencil.py (Mesh.v is the same in exact arithmetic). *)
From Coq Require Import ZArith List.
From Flocq Require Import Core BinarySingleNaN.
From Verif Require Import Base CoordSys Float FloatVector FloatMin FloatCell Queue FloatController.
Import ListNotations.
Open Scope list_scope.

(** numpy's [np.linspace(start, stop, num, endpoint=endpoint)]: [arange(num) * (delta / div) + start]
    (with the division done first if that quotient vanishes), and the last number is replaced by
    [stop] if it is to be included *)
Definition flinspace (start stop : double) (num : nat) (endpoint : bool) : list double :=
  let div := of_int (if endpoint then Z.of_nat num - 1 else Z.of_nat num) in
  let delta := fsub stop start in
  let step := fdiv delta div in
  let point (i : nat) :=
    let y := of_int (Z.of_nat i) in
    fadd (if (1 <? num)%nat then if Beqb step (B754_zero false) then fmul (fdiv y div) delta else fmul y step else fmul y delta) start in
  map (fun i => if (endpoint && (1 <? num) && (S i =? num))%nat%bool then stop else point i) (seq 0 num).

(** [np.allclose(v, 0)]: absolute values at most 1e-8 *)
Definition fallclose0 (v : fpoint) : bool := forallb (fun x => Bleb (Babs x) tolerance) v.

(** _mesh_helper.py:37-39 [simplex_stencil] *)
Definition fsimplex_stencil (ds : fpoint) : fsimplex :=
  let n := length ds in
  repeat (B754_zero false) n :: map (fun i => map (fun j => if (i =? j)%nat then nth i ds (B754_zero false) else B754_zero false) (seq 0 n)) (seq 0 n).
(** _mesh_helper.py:40 [v + simplex_stencil] *)
Definition fmesh_simplex (ds v : fpoint) : fsimplex := map (map2 fadd v) (fsimplex_stencil ds).
(** _mesh_helper.py:25-32 *)
Definition fmesh_vertices (limits : list fbox) (mesh_size : list nat) (periodic : bool) : list fpoint :=
  product (map2 (fun l m => flinspace (fst l) (snd l) m (negb periodic)) limits mesh_size).
(** _mesh_helper.py:35-36 *)
Definition fsimplex_distances (limits : list fbox) (mesh_size : list nat) : list double :=
  map2 (fun l m => fdiv (fsub (snd l) (fst l)) (of_int (2 * Z.of_nat m))) limits mesh_size.
(** _mesh_helper.py:14-40 [_generate_mesh_simplices] *)
Definition fgenerate_mesh_simplices (limits : list fbox) (mesh_size : list nat) (periodic skip_origin : bool) : res (list fsimplex) :=
  if negb (length mesh_size =? length limits)%nat then Err ValueError
  else
    let vertices := fmesh_vertices limits mesh_size periodic in
    let vertices := if skip_origin then filter (fun v => negb (fallclose0 v)) vertices else vertices in
    Ok (map (fmesh_simplex (fsimplex_distances limits mesh_size)) vertices).

(** refinement_stencil.py:18-36 [get_mesh_stencil] *)
Definition fget_mesh_stencil (mesh_size : list nat) (dist_multiplier : double) : res (list fsimplex) :=
  fgenerate_mesh_simplices (repeat (fopp dist_multiplier, dist_multiplier) (length mesh_size)) mesh_size false true.
(** refinement_stencil.py:39-53 [get_auto_stencil] in dimensions other than two and three; 2.5 is
    the default of [dist_multiplier] *)
Definition fget_auto_mesh_stencil (dim : nat) : res (list fsimplex) :=
  fget_mesh_stencil (repeat 3%nat dim) (of_dyadic 5 (-1)).
