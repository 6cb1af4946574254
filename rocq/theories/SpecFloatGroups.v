(** Specification vocabulary for points and lines told apart in double precision (C77). *)
From Coq Require Import ZArith Reals List.
From Flocq Require Import Core BinarySingleNaN.
From Verif Require Import Base Graph SpecGraph Float FloatVector FloatMin FloatCell SpecFloatCell FloatCluster SpecFloatCluster FloatIdentify SpecFloatIdentify FloatLine SpecFloatDim.
Import ListNotations.
Open Scope list_scope.
Open Scope R_scope.

(** What a group of positions belongs to: a point (given by its exact place, and how far from it the
    positions are at most), or a line. *)
Inductive kind := Spot (centre : list R) (radius : R) | Strand.
(** positions at most the feature size apart, up to rounding *)
Definition adjacent (per : bool) (boxes : list (double * double)) (fs : double) (x y : list double) : Prop :=
  within_dist per boxes x y (B2R fs + dist_error boxes (B2R fs)).

(** positions around an isolated point: within [r] of [c], [r] at most an eighth of the feature size *)
Definition spot (per : bool) (boxes : list (double * double)) (fs : double) (ps : list (list double)) (c : list R) (r : R) : Prop :=
  length c = length boxes /\ 0 <= r /\ 8 * r + slack boxes fs <= B2R fs /\ (per = true -> Forall (fun b => B2R fs < 2 * fbox_size b) boxes) /\
  forall x, In x ps -> within per boxes (place x) c r.
(** positions along a line, which may be curved: more than one; further apart than a quarter of the
    feature size; connected by steps shorter than the feature size; and the positions near one of
    them within a fifteenth of the feature size of a straight line through it *)
Definition strand (per : bool) (boxes : list (double * double)) (fs : double) (ps : list (list double)) : Prop :=
  (forall x, In x ps -> exists y, In y ps /\ ~ same_place x y) /\
  (forall x y, In x ps -> In y ps -> same_place x y \/ ~ within_dist per boxes x y ((1 + bpow radix2 (-16)) * (B2R fs / 4))) /\
  (forall x y, In x ps -> In y ps -> linked (fun a b => In a ps /\ In b ps /\ surely_close per boxes fs a b) x y) /\
  (forall x, In x ps ->
     exists u, length u = length boxes /\
       forall y v, In y ps -> ~ same_place x y -> adjacent per boxes fs x y -> leads per boxes x y v -> near_span [u] (B2R fs / 15) v).

(** The identified object [i] is the group [ps] of the given kind: it has exactly its positions; a point
    is placed within [r] of the centre up to rounding errors; a line consists of positions of the group, its
    edges connect positions at most the feature size apart, every position of the group is on it or that
    close to a position on it, and with the shortest-path method it is connected. *)
Definition identified_as (per : bool) (boxes : list (double * double)) (fs : double) (m : fmethod) (M : R) (ps : list (list double)) (k : kind) (i : fident) : Prop :=
  (forall x, In x (fi_positions i) -> In x ps) /\ (forall x, In x ps -> exists y, In y (fi_positions i) /\ same_place x y) /\
  match k with
  | Spot c r => fi_dimension i = Some 0%nat /\ exists a, fi_shape i = Some (FNodalPoint a) /\ length a = length boxes /\ Forall (fun x => is_finite x = true) a /\
      within per boxes (place a) c (r + place_error boxes M (length (fi_positions i))) /\
      (per = true -> Forall2 (fun b x => 0 <= B2R x <= fbox_size b) boxes a)
  | Strand => fi_dimension i = Some 1%nat /\ exists l, fi_shape i = Some (FNodalLine l) /\ wf_graph l /\ (forall x, In x (g_nodes l) -> In x ps) /\
      (forall x y, has_edge l x y -> adjacent per boxes fs x y) /\
      (forall x, In x ps -> exists y, In y (g_nodes l) /\ (same_place x y \/ adjacent per boxes fs x y)) /\
      (m = FShortestPath -> connected l)
  end.
