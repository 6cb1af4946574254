(** The part of networkx (an external library) that the identification step uses:
    undirected graphs without parallel edges.  The order of nodes and of the
    neighbours of a node is the order of insertion.  [W] is the type of edge
    attributes. *)
From Verif Require Import Base.
Set Implicit Arguments.

Section Graph.
  Context {A W : Type} `{EqDec A}.

  Record graph := mk_graph { g_nodes : list A; g_edges : list (A * A * W) }.

  Definition empty_graph : graph := mk_graph [] [].

  Definition end1 (e : A * A * W) : A := fst (fst e).
  Definition end2 (e : A * A * W) : A := snd (fst e).
  (** the edge joins [u] and [v] *)
  Definition joins (u v : A) (e : A * A * W) : bool :=
    (eqb (end1 e) u && eqb (end2 e) v) || (eqb (end1 e) v && eqb (end2 e) u).
  (** [v in graph[u]] *)
  Definition adj (g : graph) (u v : A) : bool := existsb (joins u v) (g_edges g).
  (** [graph.edges[u, v]] *)
  Definition edge_attr (g : graph) (u v : A) : option W :=
    match find (joins u v) (g_edges g) with Some e => Some (snd e) | None => None end.
  (** [graph.neighbors(u)] *)
  Definition other (u : A) (e : A * A * W) : list A :=
    if eqb (end1 e) u then [end2 e] else if eqb (end2 e) u then [end1 e] else [].
  Definition neighbors (g : graph) (u : A) : list A := flat_map (other u) (g_edges g).
  (** [graph.degree[u]]: a self-loop counts twice *)
  Definition degree (g : graph) (u : A) : nat :=
    list_sum (map (fun e => (if eqb (end1 e) u then 1 else 0) + (if eqb (end2 e) u then 1 else 0)) (g_edges g))%nat.

  (** [graph.add_node(u)] *)
  Definition add_node (g : graph) (u : A) : graph := mk_graph (set_add u (g_nodes g)) (g_edges g).
  (** [graph.add_edge(u, v, **attr)] *)
  Definition add_edge (g : graph) (u v : A) (w : W) : graph :=
    let g' := add_node (add_node g u) v in
    if adj g u v
    then mk_graph (g_nodes g') (map (fun e => if joins u v e then (fst e, w) else e) (g_edges g))
    else mk_graph (g_nodes g') (g_edges g ++ [(u, v, w)]).
  (** [graph.remove_edge(u, v)] *)
  Definition remove_edge (g : graph) (u v : A) : graph :=
    mk_graph (g_nodes g) (filter (fun e => negb (joins u v e)) (g_edges g)).
  (** [graph.remove_nodes_from(us)] *)
  Definition remove_nodes (g : graph) (us : list A) : graph :=
    mk_graph (filter (fun x => negb (mem x us)) (g_nodes g))
             (filter (fun e => negb (mem (end1 e) us) && negb (mem (end2 e) us)) (g_edges g)).
  (** [graph.subgraph(us).copy()]; [order] is the order in which the nodes and edges
      are visited *)
  Definition subgraph (order : list A -> list A) (eorder : list (A * A * W) -> list (A * A * W)) (g : graph) (us : list A) : graph :=
    mk_graph (order (filter (fun x => mem x us) (g_nodes g)))
             (eorder (filter (fun e => mem (end1 e) us && mem (end2 e) us) (g_edges g))).

  (** networkx [_plain_bfs]: nodes reachable from [frontier], level by level *)
  Fixpoint bfs (fuel : nat) (g : graph) (seen frontier : list A) : list A :=
    match frontier, fuel with
    | [], _ => seen
    | _, O => seen
    | _, S fuel' =>
      let next := dedup (filter (fun x => negb (mem x seen)) (flat_map (neighbors g) frontier)) in
      bfs fuel' g (seen ++ next) next
    end.
  Definition component (g : graph) (u : A) : list A := bfs (length (g_nodes g)) g [u] [u].
  (** [nx.connected_components(graph)] *)
  Definition components (g : graph) : list (list A) :=
    fold_left (fun acc u => if existsb (mem u) acc then acc else acc ++ [component g u]) (g_nodes g) [].

  (** [nx.is_dominating_set(graph, nbunch)] *)
  Definition is_dominating_set (g : graph) (nb : list A) : bool :=
    let testset := filter (fun x => mem x (g_nodes g)) nb in
    forallb (fun x => mem x testset || mem x (flat_map (neighbors g) testset)) (g_nodes g).
End Graph.
Arguments graph : clear implicits.
