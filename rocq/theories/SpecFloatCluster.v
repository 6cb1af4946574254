(** Vocabulary for clusters in double precision (C69). *)
From Coq Require Import ZArith Reals List.
From Flocq Require Import Core BinarySingleNaN.
From Verif Require Import Base Graph SpecGraph Float FloatVector FloatMin FloatCell SpecFloatCell.
Import ListNotations.
Open Scope list_scope.
Open Scope R_scope.

(** bound for the error of a computed distance when the exact one is [d]: relative 2^-43, and
    2^-39 of the sum of the box sizes *)
Definition total_size (boxes : list (double * double)) : R := fold_right Rplus 0 (map fbox_size boxes).
Definition dist_error (boxes : list (double * double)) (d : R) : R := bpow radix2 (-43) * d + bpow radix2 (-39) * total_size boxes.

(** the same position: all coordinates have the same value (0.0 and -0.0 do) *)
Definition same_place (p q : list double) : Prop := Forall2 (fun x y => B2R x = B2R y) p q.

(** boxes, feature size and positions as they come out of a search in double precision *)
Definition good_clustering (boxes : list (double * double)) (fs : double) (positions : list (list double)) : Prop :=
  Forall good_box boxes /\ boxes <> [] /\ (length boxes <= 64)%nat /\ is_finite fs = true /\ Forall (good_position boxes) positions.
(** the position [x] is in the cluster [c] *)
Definition in_cluster (c : graph (list double) double) (x : list double) : Prop := exists y, In y (g_nodes c) /\ same_place x y.
(** [x] and [y] are so close, [x] and [y] are so far apart, that rounding does not matter *)
Definition surely_close (per : bool) (boxes : list (double * double)) (fs : double) (x y : list double) : Prop :=
  exists d, 0 <= d /\ within_dist per boxes x y d /\ d + dist_error boxes d <= B2R fs.
Definition surely_apart (per : bool) (boxes : list (double * double)) (fs : double) (x y : list double) : Prop :=
  ~ within_dist per boxes x y (B2R fs + dist_error boxes (B2R fs)).
(** two positions of the list, possibly close *)
Definition maybe_close (per : bool) (boxes : list (double * double)) (fs : double) (positions : list (list double)) (x y : list double) : Prop :=
  In x positions /\ In y positions /\ ~ surely_apart per boxes fs x y.
