(** The shortest-path functions of networkx (an external library) that the
    identification step uses. *)
From Verif Require Import Base Graph.
From Coq Require Import Reals.
Open Scope list_scope.

Section Paths.
  Context {A W : Type} `{EqDec A}.

  (** the nodes that can be reached from [u] in at most [k] steps *)
  Fixpoint ball (g : graph A W) (u : A) (k : nat) : list A :=
    match k with
    | O => [u]
    | S k' => let b := ball g u k' in dedup (b ++ flat_map (neighbors g) b)
    end.
  (** [nx.shortest_path_length(graph, source=u, target=v)]; [None] for NetworkXNoPath *)
  Definition hops (g : graph A W) (u v : A) : option nat :=
    find (fun k => mem v (ball g u k)) (seq 0 (length (g_nodes g))).

  (** the attributes replaced by a function of them *)
  Definition map_attr {W'} (f : W -> W') (g : graph A W) : graph A W' :=
    mk_graph (g_nodes g) (map (fun e => (fst e, f (snd e))) (g_edges g)).
  (** [graph.edges[u, v][key] = f(graph.edges[u, v][key])] *)
  Definition update_attr (f : W -> W) (u v : A) (g : graph A W) : graph A W :=
    mk_graph (g_nodes g) (map (fun e => if joins u v e then (fst e, f (snd e)) else e) (g_edges g)).
  (** [zip(path, path[1:])] *)
  Fixpoint path_edges (p : list A) : list (A * A) :=
    match p with
    | x :: ((y :: _) as p') => (x, y) :: path_edges p'
    | _ => []
    end.
End Paths.

Section Weights.
  Context {A : Type} `{EqDec A}.
  (** the total weight of a path ([nx.shortest_path_length(..., weight)] is the one of a
      shortest path) *)
  Definition edge_weight (g : graph A R) (u v : A) : R := match edge_attr g u v with Some w => w | None => 0%R end.
  Definition path_weight (g : graph A R) (p : list A) : R :=
    fold_right Rplus 0%R (map (fun e => edge_weight g (fst e) (snd e)) (path_edges p)).
End Weights.
