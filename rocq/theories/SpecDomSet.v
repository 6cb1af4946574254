(** Specification vocabulary for the dominating-set method. *)
From Verif Require Import Base CoordSys CoordSysR Graph SpecGraph Paths SpecPath.
From Coq Require Import Reals.
Open Scope list_scope.

(** [nx.dominating_set] returns nodes of the graph such that every node is one of them
    or has a neighbour among them. *)
Definition good_domset (domset : graph point unit -> list point) : Prop :=
  forall g, wf_graph g -> incl (domset g) (g_nodes g) /\ dominates g (domset g).

Section Spec.
  Variables (cs : coordsys) (fs : R) (c : graph point R) (chosen : list point).

  (** steps between adjacent chosen positions *)
  Definition within (u v : point) : Prop := has_edge c u v /\ In u chosen /\ In v chosen.
  (** length of a path: the sum of the distances of consecutive positions *)
  Fixpoint total (u : point) (p : list point) : R :=
    match p with [] => 0%R | x :: p' => (distance cs u x + total x p')%R end.
  (** [u :: p] is a path of the cluster to [v], and no other is shorter *)
  Definition shortest (u v : point) (p : list point) : Prop :=
    follows (has_edge c) u p /\ last (u :: p) u = v /\ forall q, follows (has_edge c) u q -> last (u :: q) u = v -> (total u p <= total u q)%R.
  (** a hole between chosen positions less than two feature sizes apart: every way over
      chosen positions is longer than the feature size, than the distance and than the
      shortest path in the cluster, and the latter is shorter than two feature sizes *)
  Definition hole (a b : point) : Prop :=
    In a chosen /\ In b chosen /\ (distance cs a b < 2 * fs)%R /\ exists p, shortest a b p /\ (total a p < 2 * fs)%R /\
    forall q, follows within a q -> last (a :: q) a = b ->
      (fs < total a q /\ 1001 / 1000 * distance cs a b < total a q /\ 1001 / 1000 * total a p < total a q)%R.
  (** [a] and [b] are consecutive in the path *)
  Definition passes (p : list point) (a b : point) : Prop := In (a, b) (path_edges p) \/ In (b, a) (path_edges p).
End Spec.
