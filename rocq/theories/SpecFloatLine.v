(** Specification vocabulary for the line evaluation in double precision (C73). *)
From Coq Require Import ZArith Reals List.
From Flocq Require Import Core BinarySingleNaN.
From Verif Require Import Base Graph SpecGraph SpecPath SpecCluster Float FloatVector FloatMin FloatCell SpecFloatCell FloatCluster SpecFloatCluster FloatIdentify SpecFloatIdentify FloatLine.
Import ListNotations.
Open Scope list_scope.
Open Scope R_scope.

(** [nx.shortest_path] with weights that are not negative and not NaN: finds a path if there is
    one (nothing else is needed; with rounded sums of weights it need not be a shortest one) *)
Definition finds_double_paths (spath : graph (list double) double -> list double -> list double -> option (list (list double))) : Prop :=
  forall g u v, wf_graph g -> (forall e, In e (g_edges g) -> dle fzero (snd e) = true) -> In u (g_nodes g) -> In v (g_nodes g) ->
  match spath g u v with
  | None => ~ linked (has_edge g) u v
  | Some p => is_path g u v p
  end.
(** Nothing at all is assumed about norms of single vectors, products of matrices and sums. *)
Definition good_line_env (le : line_env) : Prop :=
  any_order (le_order le) /\ finds_double_paths (le_spath le) /\ forall x, dle fzero x = true -> dle fzero (le_pow le x 2) = true.

(** further apart than rounding errors *)
Definition clearly_different (per : bool) (boxes : list (double * double)) (x y : list double) : Prop :=
  ~ within_dist per boxes x y (dist_error boxes 0).
(** The line [r] for the cluster [c]: its nodes are positions of the cluster, its edges are edges of
    the cluster, between positions that are at most the feature size apart up to rounding; every
    position of the cluster is on the line or adjacent to it. *)
Definition fline_along (per : bool) (boxes : list (double * double)) (fs : double) (c : graph (list double) double) (r : graph (list double) unit) : Prop :=
  wf_graph r /\ part_of r c /\ dominates c (g_nodes r) /\
  forall u v, has_edge r u v -> within_dist per boxes u v (B2R fs + dist_error boxes (B2R fs)).

(** [scipy.linalg.svd] of up to three vectors: singular values, no failure *)
Definition total_svd (svd : list (list double) -> res (list double)) : Prop :=
  forall m, (length m <= 3)%nat -> Forall (Forall (fun x => is_finite x = true)) m -> exists s, svd m = Ok s.
(** [i] is the object for the cluster [c] *)
Definition fobject_of (per : bool) (boxes : list (double * double)) (fs : double) (line : graph (list double) unit -> Prop) (c : graph (list double) double) (i : fident) : Prop :=
  fi_positions i = g_nodes c /\
  match fi_dimension i with
  | Some 0%nat => exists a, fi_shape i = Some (FNodalPoint a) /\ length a = length boxes
  | Some 1%nat => exists r, fi_shape i = Some (FNodalLine r) /\ fline_along per boxes fs c r /\ line r
  | Some 2%nat | Some 3%nat | None => fi_shape i = None
  | _ => False
  end.
