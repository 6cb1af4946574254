(** Model of nodefinder/identify/plot.py, nodefinder/search/plot.py and
    nodefinder/_common_plot.py.  matplotlib (an external library) is represented by the
    list of the things that are drawn; colours, figures and axes are left out. *)
From Verif Require Import Base CoordSys SpecGeom Values Container Graph Shape Identify.
Open Scope list_scope.
Open Scope Qc_scope.

(** What is drawn: points, points coloured by a value, a line through points. *)
Inductive drawing :=
| Scatter (ps : list point)
| ScatterValues (ps : list point) (vals : list fval)
| Lines (ps : list point).

(** ** Paths of a graph *)
Section Paths.
  Context {A W : Type} `{EqDec A}.
  (** networkx: the order in which the neighbours of a node are listed *)
  Variable norder : graph A W -> A -> list A -> list A.
  (** the step from [u] to [v] is longer than twice the feature size *)
  Variable too_long : A -> A -> bool.

  (** identify/plot.py:141-147: the key of [min]; [None] is infinity *)
  Definition start_key (g : graph A W) (x : A) : option nat :=
    if (degree g x =? 2)%nat then None else Some (degree g x).
  Definition key_lt (a b : option nat) : bool :=
    match a, b with
    | Some a, Some b => (a <? b)%nat
    | Some _, None => true
    | None, _ => false
    end.
  (** identify/plot.py:141-147 [_get_next_starting_point]; [min] returns the first of
      the smallest elements and fails without elements *)
  Definition next_starting_point (g : graph A W) : res A :=
    match filter (fun x => 0 <? degree g x)%nat (g_nodes g) with
    | [] => Err ValueError
    | x :: l => Ok (fold_left (fun best y => if key_lt (start_key g y) (start_key g best) then y else best) l x)
    end.

  (** identify/plot.py:120-136: the inner loop; [fuel] bounds the number of iterations *)
  Fixpoint walk (fuel : nat) (g : graph A W) (curr : A) (path : list A) (paths : list (list A)) : res (graph A W * list (list A)) :=
    match fuel with
    | O => Err OutOfFuel
    | S fuel =>
      match norder g curr (neighbors g curr) with
      | [] => Ok (g, paths ++ [path])
      | nxt :: _ =>
        let g' := remove_edge g curr nxt in
        if too_long nxt curr
        then walk fuel g' nxt [nxt] (paths ++ [path])
        else walk fuel g' nxt (path ++ [nxt]) paths
      end
    end.
  (** identify/plot.py:116-137: the outer loop *)
  Fixpoint graph_paths (fuel : nat) (g : graph A W) (paths : list (list A)) : res (list (list A)) :=
    match fuel with
    | O => Err OutOfFuel
    | S fuel =>
      match g_edges g with
      | [] => Ok paths
      | _ =>
        let! c := next_starting_point g in
        let! gp := walk (S (length (g_edges g))) g c [c] paths in
        graph_paths fuel (fst gp) (snd gp)
      end
    end.
  Definition get_graph_paths (g : graph A W) : res (list (list A)) := graph_paths (S (length (g_edges g))) g [].
End Paths.

(** identify/plot.py:127-129: [la.norm(next - curr) > 2 * feature_size]; [None] is
    [np.inf] (identify/plot.py:95-96) *)
Definition longer_than (fs : option Qc) (u v : point) : bool :=
  match fs with
  | None => false
  | Some f => negb (leb 0 (qc 2 * f) && leb (euclid_sq u v) (qc 2 * f * (qc 2 * f)))
  end.

(** identify/plot.py:79-108 [nodal_line].  Without nodes, [axis.scatter] is called
    without coordinates. *)
Definition plot_line (norder : graph point unit -> point -> list point -> list point) (fs : option Qc) (g : graph point unit) : res (list drawing) :=
  let! paths := get_graph_paths norder (longer_than fs) g in
  match paths with
  | [] => match g_nodes g with [] => Err TypeError | _ => Ok [Scatter (g_nodes g)] end
  | _ => Ok (map Lines paths)
  end.

(** identify/plot.py:33-43, 47-76 [_plot_positions], [nodal_point] *)
Definition plot_shape (norder : graph point unit -> point -> list point -> list point) (fs : Qc) (r : ident_result) : res (list drawing) :=
  match i_shape r with
  | None => match i_positions r with [] => Err TypeError | ps => Ok [Scatter ps] end
  | Some (NodalPoint p) => Ok [Scatter [p]]
  | Some (NodalLine g _) => plot_line norder (Some fs) g
  end.

(** _common_plot.py:10-35 [_setup_plot] *)
Definition setup_plot (limits : list (Qc * Qc)) : res unit :=
  if ((length limits =? 3) || (length limits =? 2))%nat then Ok tt else Err AssertionError.

(** identify/plot.py:20-44 [result] *)
Definition plot_identification (norder : graph point unit -> point -> list point -> list point) (c : ident_container) : res (list drawing) :=
  let! _ := setup_plot (limits (ic_cs c)) in
  let! ds := sequence (map (plot_shape norder (ic_feature_size c)) (ic_results c)) in
  Ok (concat ds).

(** search/plot.py:18-51 [points]; [nodes]: the nodes in the order of the iteration
    over the container (result.nodes) *)
Fixpoint point_coords (is_3d : bool) (nodes : list result) : res (list (point * fval)) :=
  match nodes with
  | [] => Ok []
  | n :: nodes =>
    match pos_of n with
    | x :: y :: z =>
      let! p := (if is_3d then match z with [] => Err IndexError | z0 :: _ => Ok [x; y; z0] end else Ok [x; y]) in
      let! ps := point_coords is_3d nodes in
      Ok ((p, value_of n) :: ps)
    | _ => Err ValueError
    end
  end.
Definition plot_points (cs : coordsys) (nodes : list result) : res (list drawing) :=
  let! _ := setup_plot (limits cs) in
  let! ps := point_coords (length (limits cs) =? 3)%nat nodes in
  Ok [ScatterValues (map fst ps) (map snd ps)].

(** search/plot.py:118-121 [_plot_simplex]: [itertools.combinations(simplex, 2)] *)
Fixpoint pairs {A} (l : list A) : list (A * A) :=
  match l with [] => [] | x :: l => map (fun y => (x, y)) l ++ pairs l end.
Definition plot_simplex (s : list point) : list drawing := map (fun e => Lines [fst e; snd e]) (pairs s).
(** search/plot.py:54-80 [simplices]; the history of a joined result is that of the first
    minimization followed by that of the second (result/_minimization.py:49-70) *)
Definition history_of (r : result) : list (list point) :=
  match r with Plain r => r_simplex_history r | Joined child ancestor _ => r_simplex_history ancestor ++ r_simplex_history child end.
Definition plot_simplices (cs : coordsys) (nodes : list result) : res (list drawing) :=
  let! _ := setup_plot (limits cs) in
  Ok (concat (map plot_simplex (concat (map history_of nodes)))).
