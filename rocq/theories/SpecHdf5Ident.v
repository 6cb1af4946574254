(** Specification vocabulary for saved identification results. *)
From Verif Require Import Base CoordSys SpecGeom Values Hdf5 SpecHdf5 Graph SpecGraph Shape Identify.
Open Scope list_scope.

(** Loading whatever the file looks like gives something that satisfies [P]. *)
Definition loads_like {A} (dec : tree -> res A) (t : tree) (P : A -> Prop) : Prop :=
  forall t', same_file t t' -> exists v, dec t' = Ok v /\ P v.
(** Loading fails with the exception [e]. *)
Definition fails_with {A} (dec : tree -> res A) (t : tree) (e : exn) : Prop :=
  forall t', same_file t t' -> dec t' = Err e.

(** [list(graph.edges)] lists the edges, each as a pair in either order. *)
Definition lists_edges (elist : graph point unit -> list (point * point)) : Prop :=
  forall g u v, has_edge g u v <-> In (u, v) (elist g) \/ In (v, u) (elist g).

(** The same shape: for lines the same nodes in the same order, the same edges and the same
    degree count. *)
Definition same_graph (g g' : graph point unit) : Prop :=
  g_nodes g' = g_nodes g /\ forall u v, has_edge g' u v <-> has_edge g u v.
Definition same_shape (s s' : shape) : Prop :=
  match s, s' with
  | NodalPoint p, NodalPoint p' => p' = p
  | NodalLine g dc, NodalLine g' dc' => same_graph g g' /\ wf_graph g' /\ dc' = dc
  | _, _ => False
  end.
Definition same_opt_shape (s s' : option shape) : Prop :=
  match s, s' with None, None => True | Some a, Some b => same_shape a b | _, _ => False end.
Definition same_result (r r' : ident_result) : Prop :=
  i_positions r' = i_positions r /\ i_dimension r' = i_dimension r /\ same_opt_shape (i_shape r) (i_shape r').
Definition same_container (c c' : ident_container) : Prop :=
  ic_cs c' = ic_cs c /\ ic_feature_size c' = ic_feature_size c /\ Forall2 same_result (ic_results c) (ic_results c').

(** Lines are proper graphs, as those made by the identification are (C51). *)
Definition proper_shape (s : option shape) : Prop :=
  match s with Some (NodalLine g _) => wf_graph g | _ => True end.
