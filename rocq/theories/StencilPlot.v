(** Model of search.plot.stencil (search/plot.py:83-115) over real numbers (what matplotlib is asked
    to draw; settings such as colors are left out; numpy's cos, sin and linspace are exact here). *)
From Coq Require Import Reals List.
From Verif Require Import Base.
Import ListNotations.
Open Scope list_scope.
Open Scope R_scope.

Definition rvector := list R.
(** a drawing: a line or curve through points, a single point, a surface through a grid of points *)
Inductive rdrawing :=
| RLine (ps : list rvector)
| RScatter (p : rvector)
| RSurface (grid : list (list rvector)).

(** search/plot.py:118-121 [_plot_simplex]: [itertools.combinations(simplex, 2)] *)
Fixpoint rpairs (l : list rvector) : list (rvector * rvector) :=
  match l with [] => [] | x :: l => map (fun y => (x, y)) l ++ rpairs l end.
Definition rplot_simplex (s : list rvector) : list rdrawing := map (fun e => RLine [fst e; snd e]) (rpairs s).

(** numpy: [np.min(vertices, axis=0)], [np.max(vertices, axis=0)]; no vertices: ValueError *)
Definition axis_fold (op : R -> R -> R) (vs : list rvector) : res rvector :=
  match vs with [] => Err ValueError | v :: vs => Ok (fold_left (map2 op) vs v) end.
(** [np.linspace(0, stop, num)] *)
Definition rlinspace (stop : R) (num : nat) : list R := map (fun i => INR i * (stop / INR (num - 1))) (seq 0 num).

(** _common_plot.py:10-35 [_setup_plot]: the number of dimensions is 2 or 3 *)
Definition rsetup_plot (limits : list (R * R)) : res unit :=
  if ((length limits =? 3) || (length limits =? 2))%nat then Ok tt else Err AssertionError.
(** search/plot.py:104-106 *)
Definition circle_points : list rvector := map (fun phi => [cos phi; sin phi]) (rlinspace (2 * PI) 200).
(** search/plot.py:108-113: the outer products *)
Definition sphere_points : list (list rvector) :=
  map (fun phi => map (fun theta => [cos phi * sin theta; sin phi * sin theta; 1 * cos theta]) (rlinspace PI 200)) (rlinspace (2 * PI) 200).
(** search/plot.py:83-115 [stencil]; [dim] is the last entry of the shape of the array [stcl]; the
    axis limits and the drawings.  [reshape(-1, 0)] is a ValueError. *)
Definition plot_stencil (dim : nat) (stcl : list (list rvector)) (origin plot_sphere : bool) : res (list (R * R) * list rdrawing) :=
  match dim with O => Err ValueError | S _ =>
    let vertices := concat stcl in
    let! lower := axis_fold Rmin vertices in
    let! upper := axis_fold Rmax vertices in
    let limits := combine lower upper in
    let! _ := rsetup_plot limits in
    Ok (limits,
      concat (map rplot_simplex stcl) ++
      (if origin then [RScatter (repeat 0 dim)] else []) ++
      (if plot_sphere then
         match dim with 2%nat => [RLine circle_points] | 3%nat => [RSurface sphere_points] | _ => [] end
       else []))
  end.
