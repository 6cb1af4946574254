(** Specification vocabulary for graphs. *)
From Verif Require Import Base Graph.
Set Implicit Arguments.

Section Spec.
  Context {A W : Type} `{EqDec A}.

  (** [g] has the edge [u]-[v] *)
  Definition has_edge (g : graph A W) (u v : A) : Prop :=
    exists w, In (u, v, w) (g_edges g) \/ In (v, u, w) (g_edges g).

  (** Consecutive elements of [x :: p] are related by [R]. *)
  Fixpoint follows (R : A -> A -> Prop) (x : A) (p : list A) : Prop :=
    match p with [] => True | y :: p' => R x y /\ follows R y p' end.

  (** There is a chain from [u] to [v] of elements with consecutive ones related. *)
  Definition linked (R : A -> A -> Prop) (u v : A) : Prop :=
    exists p, follows R u p /\ last (u :: p) u = v.

  (** Two different edges. *)
  Definition apart (e f : A * A * W) : Prop := joins (end1 e) (end2 e) f = false.
  (** A graph without parallel edges whose edges join nodes of the graph. *)
  Record wf_graph (g : graph A W) : Prop := {
    wg_nodes : NoDup (g_nodes g);
    wg_ends : forall u v w, In (u, v, w) (g_edges g) -> In u (g_nodes g) /\ In v (g_nodes g);
    wg_simple : ForallOrdPairs apart (g_edges g)
  }.
  Definition loopless (g : graph A W) : Prop := forall u, ~ has_edge g u u.
  (** A connected graph. *)
  Definition connected (g : graph A W) : Prop :=
    forall u v, In u (g_nodes g) -> In v (g_nodes g) -> linked (has_edge g) u v.
  (** Every node of [g] is in [us] or has a neighbour in it. *)
  Definition dominates (g : graph A W) (us : list A) : Prop :=
    forall x, In x (g_nodes g) -> In x us \/ exists y, In y us /\ has_edge g x y.
End Spec.

(** All nodes and edges of [h] belong to [g] (attributes disregarded). *)
Definition part_of {A W W'} `{EqDec A} (h : graph A W') (g : graph A W) : Prop :=
  incl (g_nodes h) (g_nodes g) /\ forall u v, has_edge h u v -> has_edge g u v.
