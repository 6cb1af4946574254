(** Model of nodefinder/identify/_evaluate/_line/_dominating_set.py.  Distances and
    weights are exact reals.  An edge has the attributes distance and (after line 34)
    weight. *)
From Verif Require Import Base CoordSys CoordSysR Graph Paths Dimension.
From Coq Require Import Reals.
Open Scope list_scope.

Definition dgraph := graph point (R * option R).

(** [itertools.combinations(l, r=2)] *)
Fixpoint pairs {A} (l : list A) : list (A * A) :=
  match l with [] => [] | x :: l' => map (pair x) l' ++ pairs l' end.

(** [reference <= other] as a boolean *)
Definition rle (x y : R) : bool := negb (rgt x y).

Section DomSet.
  (** [order], [eorder]: the order of nodes and edges in a copied subgraph;
      [spath] is [nx.shortest_path] with weights; [domset] is [nx.dominating_set] *)
  Variables (order : list point -> list point) (eorder : list (point * point * (R * option R)) -> list (point * point * (R * option R))).
  Variables (spath : graph point R -> point -> point -> option (list point)) (domset : graph point unit -> list point).
  Variables (cs : coordsys) (fs : R).

  (** the graph with the distance, or the weight, of the edges; networkx uses 1 for a
      missing attribute *)
  Definition dist_graph (g : dgraph) : graph point R := map_attr fst g.
  Definition weight_graph (g : dgraph) : graph point R := map_attr (fun a => match snd a with Some w => w | None => 1%R end) g.

  (** [nx.shortest_path_length(graph, u, v, weight=_DISTANCE_KEY)] *)
  Definition spath_length (g : dgraph) (u v : point) : res R :=
    match spath (dist_graph g) u v with
    | None => Err NetworkXNoPath
    | Some p => Ok (path_weight (dist_graph g) p)
    end.

  (** _dominating_set.py:27,31-34: the copy with weights *)
  Definition with_weights (g : graph point R) : dgraph := map_attr (fun d => (d, Some (d ^ 4)%R)) g.
  (** _dominating_set.py:28-36; [_DIST_CUTOFF_FACTOR] = 3 *)
  Definition reduced_graph (g : graph point R) : graph point unit :=
    fold_left (fun r e => if rgt (fs / 3) (snd e) then add_edge r (end1 e) (end2 e) tt else r) (g_edges g)
      (fold_left (@add_node point unit _) (g_nodes g) empty_graph).

  (** _dominating_set.py:67,70-91: the pairs to be patched with their [dist_original] *)
  Definition patch_cutoff : R := (1001 / 1000)%R.
  Fixpoint find_holes (sub full : dgraph) (ps : list (point * point)) : res (list (point * point * R)) :=
    match ps with
    | [] => Ok []
    | (p1, p2) :: ps' =>
      let dist_minimal := distance cs p1 p2 in
      if rgt (2 * fs) dist_minimal then
        let! dist_reduced := spath_length sub p1 p2 in
        if rgt dist_reduced (Rmax fs (patch_cutoff * dist_minimal)) then
          let! dist_original := spath_length full p1 p2 in
          let! rest := find_holes sub full ps' in
          if rgt dist_reduced (patch_cutoff * dist_original) && rgt (2 * fs) dist_original
          then Ok ((p1, p2, dist_original) :: rest) else Ok rest
        else find_holes sub full ps'
      else find_holes sub full ps'
    end.

  (** _dominating_set.py:109-119 [_patch_subgraph_hole] *)
  Definition patch_path (full : dgraph) (p : list point) (sub : dgraph) : res dgraph :=
    fold_left (fun r e => let! s := r in match edge_attr full (fst e) (snd e) with Some a => Ok (add_edge s (fst e) (snd e) a) | None => Err KeyError end)
      (path_edges p) (Ok (fold_left (@add_node point _ _) (removelast (tl p)) sub)).
  Definition patch_subgraph_hole (sub full : dgraph) (start end_ : point) : res dgraph :=
    match spath (dist_graph full) start end_ with
    | None => Err NetworkXNoPath
    | Some p => patch_path full p sub
    end.
  (** _dominating_set.py:94-106: the loop over the pairs *)
  Fixpoint patch_holes (full : dgraph) (holes : list (point * point * R)) (sub : dgraph) : res dgraph :=
    match holes with
    | [] => Ok sub
    | (p1, p2, dist_original) :: rest =>
      let! dist_reduced := spath_length sub p1 p2 in
      let! sub' := if rgt dist_reduced (2 * dist_original) then patch_subgraph_hole sub full p1 p2 else Ok sub in
      patch_holes full rest sub'
    end.
  (** _dominating_set.py:52-106 [_patch_all_subgraph_holes] with the default arguments *)
  Definition patch_all_subgraph_holes (sub full : dgraph) : res dgraph :=
    let! holes := find_holes sub full (pairs (g_nodes sub)) in
    patch_holes full (sort_by (fun a b => rle (snd a) (snd b)) holes) sub.

  (** _dominating_set.py:122-133 [_remove_duplicate_paths]: the key [-e[2]] of an edge
      without weight is a TypeError *)
  Definition has_weight (e : point * point * (R * option R)) : bool := match snd (snd e) with Some _ => true | None => false end.
  Definition weight_of (e : point * point * (R * option R)) : R := match snd (snd e) with Some w => w | None => 0%R end.
  Fixpoint remove_duplicates (es : list (point * point * (R * option R))) (sub : dgraph) : res dgraph :=
    match es with
    | [] => Ok sub
    | e :: es' =>
      match spath (weight_graph sub) (end1 e) (end2 e) with
      | None => Err NetworkXNoPath
      | Some p => remove_duplicates es' (if (2 <? length p)%nat then remove_edge sub (end1 e) (end2 e) else sub)
      end
    end.
  Definition remove_duplicate_paths (sub : dgraph) : res dgraph :=
    if forallb has_weight (g_edges sub)
    then remove_duplicates (sort_by (fun a b => rle (- weight_of a) (- weight_of b)) (g_edges sub)) sub
    else Err TypeError.

  (** _dominating_set.py:23-49 [_evaluate_line_dominating_set] *)
  Definition evaluate_line_dominating_set (g : graph point R) : res dgraph :=
    let chosen := domset (reduced_graph g) in
    let sub := subgraph order eorder (map_attr (fun d => (d, None)) g) chosen in
    let! patched := patch_all_subgraph_holes sub (with_weights g) in
    remove_duplicate_paths patched.
End DomSet.
