(** Model, in IEEE double precision, of nodefinder/identify/plot.py (Plot.v is the same in exact
    arithmetic; the decomposition of a graph into paths, which only compares lengths, is taken from
    there).  matplotlib (an external library) is represented by the list of the things that are
    drawn; colours, figures and axes are left out.  [scipy.linalg.norm], an external function, is a
    parameter; it raises ValueError for coordinates that are not finite, which is left out (the theorems
    are about finite ones). *)
From Coq Require Import ZArith List.
From Flocq Require Import Core BinarySingleNaN.
From Verif Require Import Base CoordSys CellList Graph Plot Float FloatVector FloatMin FloatCell FloatController FloatIdentify.
Import ListNotations.
Open Scope list_scope.

(** What is drawn: points, a line through points. *)
Inductive fdrawing :=
| FScatter (ps : list fpoint)
| FLines (ps : list fpoint).

Section Plot.
  (** [scipy.linalg.norm] *)
  Variable norm : list double -> double.
  (** networkx: the order in which the neighbours of a node are listed *)
  Variable norder : graph fpoint unit -> fpoint -> list fpoint -> list fpoint.

(** identify/plot.py:127-129: [la.norm(next - curr) > 2 * feature_size]; [None] is [np.inf]
    (identify/plot.py:95-96), and nothing is greater than infinity *)
Definition flonger_than (fs : option double) (next curr : fpoint) : bool :=
  match fs with
  | None => false
  | Some f => flt (fmul dtwo f) (norm (map2 fsub next curr))
  end.
(** identify/plot.py:110-137 [_get_graph_paths] *)
Definition fget_graph_paths (fs : option double) (g : graph fpoint unit) : res (list (list fpoint)) :=
  get_graph_paths norder (flonger_than fs) g.
(** identify/plot.py:79-108 [nodal_line].  Without nodes, [axis.scatter] is called
    without coordinates. *)
Definition fplot_line (fs : option double) (g : graph fpoint unit) : res (list fdrawing) :=
  let! paths := fget_graph_paths fs g in
  match paths with
  | [] => match g_nodes g with [] => Err TypeError | _ => Ok [FScatter (g_nodes g)] end
  | _ => Ok (map FLines paths)
  end.
(** identify/plot.py:33-43, 47-76 [_plot_positions], [nodal_point] *)
Definition fplot_shape (fs : double) (i : fident) : res (list fdrawing) :=
  match fi_shape i with
  | None => match fi_positions i with [] => Err TypeError | ps => Ok [FScatter ps] end
  | Some (FNodalPoint p) => Ok [FScatter [p]]
  | Some (FNodalLine g) => fplot_line (Some fs) g
  end.
(** _common_plot.py:10-35 [_setup_plot] *)
Definition fsetup_plot (boxes : list fbox) : res unit :=
  if ((length boxes =? 3) || (length boxes =? 2))%nat then Ok tt else Err AssertionError.
(** identify/plot.py:20-44 [result] for a container with these limits, feature size and objects *)
Definition fplot_identification (boxes : list fbox) (fs : double) (objects : list fident) : res (list fdrawing) :=
  let! _ := fsetup_plot boxes in
  let! ds := sequence (map (fplot_shape fs) objects) in
  Ok (concat ds).
End Plot.
