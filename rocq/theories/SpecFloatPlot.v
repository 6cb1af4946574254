(** Specification vocabulary for plots in double precision (C79). *)
From Coq Require Import ZArith Reals List.
From Flocq Require Import Core BinarySingleNaN.
From Verif Require Import Base Graph SpecGraph SpecPlot Float FloatVector FloatMin FloatCell SpecFloatCell FloatIdentify SpecFloatIdentify FloatPlot.
Import ListNotations.
Open Scope list_scope.
Open Scope R_scope.

(** the exact length of the straight line from [u] to [v] *)
Definition straight (u v : list double) : R := rlength (map2 Rminus (place u) (place v)).
(** [dim] coordinates, finite and below 2^400 *)
Definition plottable (dim : nat) (p : list double) : Prop := length p = dim /\ Forall (fun x => is_finite x = true /\ Rabs (B2R x) <= bpow radix2 400) p.
(** [scipy.linalg.norm]: the length of the vector up to a relative error of 2^-42; the signs of the
    coordinates do not matter *)
Definition good_norm (norm : list double -> double) : Prop :=
  (forall v w, map Babs v = map Babs w -> norm v = norm w) /\
  forall v, (length v <= 64)%nat -> Forall (fun x => is_finite x = true /\ Rabs (B2R x) <= bpow radix2 402) v ->
    is_finite (norm v) = true /\ Rabs (B2R (norm v) - rlength (map B2R v)) <= bpow radix2 (-42) * rlength (map B2R v) + bpow radix2 (-500).
(** a feature size from 2^-400 to 2^1000 *)
Definition plot_size (fs : double) : Prop := is_finite fs = true /\ bpow radix2 (-400) <= B2R fs <= bpow radix2 1000.

(** The lines [paths] show the graph: every edge is drawn once or not at all, and nothing else; it
    is drawn if it is not longer than twice the feature size, and not drawn if it is longer, where up to a
    relative difference of 2^-40 either can happen. *)
Definition fshows (fs : double) (g : graph (list double) unit) (paths : list (list (list double))) : Prop :=
  (forall u v, has_edge g u v -> straight u v <= 2 * B2R fs * (1 - bpow radix2 (-40)) -> times_drawn u v paths = 1%nat) /\
  (forall u v, times_drawn u v paths <> 0%nat -> times_drawn u v paths = 1%nat /\ has_edge g u v /\ straight u v <= 2 * B2R fs * (1 + bpow radix2 (-40))) /\
  Forall (fun p => p <> []) paths /\
  (forall x, In x (concat paths) -> exists y, has_edge g x y).

(** What is to be drawn for an object. *)
Definition fshown (fs : double) (i : fident) (ds : list fdrawing) : Prop :=
  match fi_shape i with
  | None => ds = [FScatter (fi_positions i)]
  | Some (FNodalPoint p) => ds = [FScatter [p]]
  | Some (FNodalLine g) =>
      if (length (g_edges g) =? 0)%nat then ds = [FScatter (g_nodes g)]
      else exists paths, ds = map FLines paths /\ fshows fs g paths
  end.
(** The lines [paths] show the line [g] of a box: an edge is drawn, once, if and only if it does
    not pass across the boundary, that is, if the positions themselves (rather than periodic images) are
    the given distance apart. *)
Definition fcut_at_boundary (d : R) (g : graph (list double) unit) (paths : list (list (list double))) : Prop :=
  (forall u v, has_edge g u v -> straight u v <= d -> times_drawn u v paths = 1%nat) /\
  (forall u v, times_drawn u v paths <> 0%nat -> times_drawn u v paths = 1%nat /\ has_edge g u v /\ straight u v <= d).
