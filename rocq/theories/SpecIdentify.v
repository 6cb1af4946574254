(** Specification vocabulary for the identification step. *)
From Verif Require Import Base CoordSys SpecGeom CoordSysR Graph SpecGraph GraphFacts Paths SpecPath Cluster SpecCluster Dimension SpecDim LocalDim PropDim DomSet SpecDomSet Shape Identify.
From Coq Require Import Reals.
Open Scope list_scope.

(** The libraries behave as documented; nothing else is assumed about their choices. *)
Record good_environment (cs : coordsys) (env : environment) : Prop := {
  ge_order : any_order (e_order env);
  ge_edges : any_order (e_edges env);
  ge_edges2 : any_order (e_edges2 env);
  ge_shuffle : forall g, any_order (e_shuffle env g);
  ge_rng : forall g, wf_graph g -> good_env cs g (e_rng env g) (Some 10%nat);
  ge_spath : good_spath (e_spath env);
  ge_domset : good_domset (e_domset env)
}.

(** Every position is in exactly one result, once, and two positions are in the same
    result exactly if a chain of steps of at most [fs] joins them. *)
Definition accounts_for (cs : coordsys) (fs : Qc) (positions : list point) (rs : list ident_result) : Prop :=
  NoDup (concat (map i_positions rs)) /\
  (forall x, In x (concat (map i_positions rs)) <-> In x positions) /\
  (forall r, In r rs -> i_positions r <> []) /\
  forall x y, In x positions -> (exists r, In r rs /\ In x (i_positions r) /\ In y (i_positions r)) <-> linked (close cs fs positions) x y.

(** A line along the given positions: steps between different positions at most [fs]
    apart, and no position further than that from the line. *)
Definition line_along (cs : coordsys) (fs : Qc) (positions : list point) (g : graph point unit) : Prop :=
  wf_graph g /\ g_nodes g <> [] /\ incl (g_nodes g) positions /\
  (forall u v, has_edge g u v -> u <> v /\ (distance cs u v <= Qc2R fs)%R) /\
  forall x, In x positions -> exists y, In y (g_nodes g) /\ (x = y \/ (distance cs x y <= Qc2R fs)%R).

(** The shape that belongs to the dimension. *)
Definition has_shape (cs : coordsys) (r : ident_result) (line : ident_result -> Prop) : Prop :=
  match i_dimension r with
  | Some 0%nat => exists a, average cs (i_positions r) = Ok a /\ i_shape r = Some (NodalPoint a)
  | Some 1%nat => line r
  | _ => i_shape r = None
  end.
Definition is_line_result (cs : coordsys) (fs : Qc) (r : ident_result) : Prop :=
  exists g, i_shape r = Some (NodalLine g (create_degree_count g)) /\ line_along cs fs (i_positions r) g.
