(** Specification vocabulary: nodes gathered around isolated centres. *)
From Verif Require Import Base CoordSys SpecGeom CoordSysR Graph Identify.
From Coq Require Import Reals List.
Open Scope list_scope.
Open Scope R_scope.

(** Every position is within [r] of one of the [centres]; different centres are further than
    [fs + 2 r] from each other; [r] is at most an eighth of the feature size, and (with periodic
    boundary conditions) the box is longer than half of it in every direction. *)
Definition isolated (cs : coordsys) (fs : Qc) (r : R) (centres positions : list point) : Prop :=
  Forall (is_pos cs) centres /\
  8 * r <= Qc2R fs /\
  (periodic cs = true -> Forall (fun l => Qc2R fs < 2 * (Qc2R (snd l) - Qc2R (fst l))) (limits cs)) /\
  (forall c d, In c centres -> In d centres -> c <> d -> Qc2R fs + 2 * r < distance cs c d) /\
  forall x, In x positions -> exists c, In c centres /\ distance cs x c <= r.

(** The identified object [i] is the centre [c]: a nodal point, placed within [r] of [c], that
    consists of the positions within [r] of [c]. *)
Definition point_at (cs : coordsys) (r : R) (positions : list point) (c : point) (i : ident_result) : Prop :=
  i_dimension i = Some 0%nat /\
  (exists a, i_shape i = Some (NodalPoint a) /\ is_pos cs a /\ distance cs a c <= r) /\
  forall x, In x (i_positions i) <-> In x positions /\ distance cs x c <= r.
