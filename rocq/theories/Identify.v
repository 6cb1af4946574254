(** Model of nodefinder/identify/_run.py, _evaluate/_run.py, _evaluate/_point.py and
    _evaluate/_line/_run.py. *)
From Verif Require Import Base CoordSys CellList Values Container Queue Hdf5 CoordSysR Graph Paths Cluster Dimension Ballistic ShortestPath DomSet Shape.
From Coq Require Import Reals.
Open Scope list_scope.

(** [evaluate_line_method]: the keys of _line/_run.py:19-23, or anything else *)
Inductive method := MShortestPath | MDominatingSet | MBallistic | MOther.

(** identify/result/_shapes.py: [NodalPoint], [NodalLine].  Attributes of the edges of the
    graph (only the dominating-set method leaves any) are left out. *)
Inductive shape :=
| NodalPoint (position : point)
| NodalLine (graph : graph point unit) (degree_count : counter).

(** identify/result/_containers.py:44-69 [IdentificationResult], 16-41 [IdentificationResultContainer] *)
Record ident_result := mk_ident { i_positions : list point; i_dimension : option nat; i_shape : option shape }.
Record ident_container := mk_identc { ic_cs : coordsys; ic_feature_size : Qc; ic_results : list ident_result }.

(** What is not determined by the code: the iteration order of sets and of graph copies,
    the random module, and the choice among shortest paths and dominating sets. *)
Record environment := mk_env {
  e_order : list point -> list point;
  e_edges : list (point * point * R) -> list (point * point * R);
  e_edges2 : list (point * point * (R * option R)) -> list (point * point * (R * option R));
  e_shuffle : graph point R -> list point -> list point;
  e_rng : graph point R -> point -> nat -> rng;
  e_spath : graph point R -> point -> point -> option (list point);
  e_domset : graph point unit -> list point
}.

Section Identify.
  Variables (env : environment) (cs : coordsys) (fs : Qc).

  (** _line/_run.py:25-41 [_evaluate_line] *)
  Definition line_graph (m : method) (g : graph point R) : res (graph point unit) :=
    match m with
    | MShortestPath => evaluate_line_shortest_path (e_order env) (e_spath env) (Qc2R fs) g
    | MBallistic => evaluate_line_ballistic (e_order env) cs (Qc2R fs) g
    | MDominatingSet => let! r := evaluate_line_dominating_set (e_order env) (e_edges2 env) (e_spath env) (e_domset env) cs (Qc2R fs) g in Ok (map_attr (fun _ => tt) r)
    | MOther => Err ValueError
    end.
  Definition evaluate_line (m : method) (g : graph point R) : res shape :=
    let! r := line_graph m g in Ok (NodalLine r (create_degree_count r)).
  (** _point.py:14-18 [_evaluate_point] *)
  Definition evaluate_point (positions : list point) : res shape :=
    let! a := average cs positions in Ok (NodalPoint a).
  (** _evaluate/_run.py:20-63 [evaluate_cluster] *)
  Definition evaluate_cluster (m : method) (g : graph point R) (dim : option nat) : res (option shape) :=
    match dim with
    | Some 0%nat => let! s := evaluate_point (g_nodes g) in Ok (Some s)
    | Some 1%nat =>
      match evaluate_line m g with
      | Ok s => Ok (Some s)
      | Err IndexError | Err ValueError => Ok None
      | Err e => Err e
      end
    | _ => Ok None
    end.

  (** _dimension.py:23-31: the defaults *)
  Definition cluster_dimension (g : graph point R) : res (option nat) :=
    calculate_dimension (e_shuffle env g) (e_rng env g) cs g (Qc2R fs) 3 (Some 5%nat) (Some 10%nat).
  (** identify/_run.py:74-94: one turn of the loop *)
  Definition identify_cluster (m : method) (g : graph point R) : res ident_result :=
    let! dim := cluster_dimension g in
    let! shape := evaluate_cluster m g dim in
    Ok (mk_ident (g_nodes g) dim shape).
  (** identify/_run.py:47-99 [run_from_positions] *)
  Definition run_from_positions (m : method) (positions : list point) : res ident_container :=
    let! rs := sequence (map (identify_cluster m) (create_clusters (e_order env) (e_edges env) cs fs positions)) in
    Ok (mk_identc cs fs rs).
End Identify.

(** the argument [result]: a container, or the state saved by the search *)
Inductive search_result := SContainer (c : container) | SState (s : controller_state).
(** [result.dist_cutoff]: [ControllerState] has no such attribute *)
Definition attr_dist_cutoff (r : search_result) : res Qc :=
  match r with SContainer c => Ok (c_cutoff c) | SState _ => Err AttributeError end.
(** identify/_run.py:21-44 [run] *)
Definition identify_run (env : environment) (r : search_result) (feature_size : option Qc) (m : method) : res ident_container :=
  let! fs := match feature_size with Some fs => Ok fs | None => let! d := attr_dist_cutoff r in Ok (d * qc 3)%Qc end in
  let c := match r with SContainer c => c | SState s => st_result s end in
  run_from_positions env (c_cs c) fs m (map pos_of (cl_flat (c_nodes c))).
