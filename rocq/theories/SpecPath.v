(** Specification vocabulary for paths in graphs with weights. *)
From Verif Require Import Base Graph SpecGraph Paths.
From Coq Require Import Reals.
Open Scope list_scope.

Section Spec.
  Context {A : Type} `{EqDec A}.

  (** [p] is a path of [g] from [u] to [v] (both ends included) *)
  Definition is_path {W} (g : graph A W) (u v : A) (p : list A) : Prop :=
    exists q, p = u :: q /\ follows (has_edge g) u q /\ last p u = v.

  Definition nonneg_weights (g : graph A R) : Prop := forall e, In e (g_edges g) -> (0 <= snd e)%R.

  (** [nx.shortest_path(graph, u, v, weight)], [None] for NetworkXNoPath: a
      shortest path without repetition, if there is a path at all.  Nothing is assumed for negative
      weights or for nodes that are not in the graph. *)
  Definition good_spath (spath : graph A R -> A -> A -> option (list A)) : Prop :=
    forall g u v, wf_graph g -> nonneg_weights g -> In u (g_nodes g) -> In v (g_nodes g) ->
    match spath g u v with
    | None => ~ linked (has_edge g) u v
    | Some p => is_path g u v p /\ NoDup p /\ forall p', is_path g u v p' -> (path_weight g p <= path_weight g p')%R
    end.
End Spec.
