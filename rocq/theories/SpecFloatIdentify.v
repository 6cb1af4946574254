(** Specification vocabulary for the identification in double precision (C72). *)
From Coq Require Import ZArith Reals List Permutation.
From Flocq Require Import Core BinarySingleNaN.
From Verif Require Import Base Graph SpecGraph SpecCluster Float FloatVector FloatMin FloatCell SpecFloatCell FloatController FloatCluster SpecFloatCluster FloatIdentify.
Import ListNotations.
Open Scope list_scope.
Open Scope R_scope.

(** [x] is a sum of the numbers, added in double precision in any order and grouping (numpy
    adds pairwise, in blocks or row by row, depending on the shape of the array) *)
Inductive summed : list double -> double -> Prop :=
| summed_zero s : summed [] (B754_zero s)
| summed_one x : summed [x] x
| summed_add l1 l2 x y : summed l1 x -> summed l2 y -> summed (l1 ++ l2) (fadd x y)
| summed_perm l l' x : Permutation l l' -> summed l x -> summed l' x.

(** [t] consists of [dim] different elements of [l] *)
Definition choice_of {A} (l : list A) (dim : nat) (t : list A) : Prop := NoDup t /\ incl t l /\ length t = dim.
(** the tuples are all choices, each once *)
Definition all_choices {A} (l : list A) (dim : nat) (ts : list (list A)) : Prop :=
  Forall (choice_of l dim) ts /\ (forall t, choice_of l dim t -> exists t', In t' ts /\ Permutation t t') /\
  forall i j t t', nth_error ts i = Some t -> nth_error ts j = Some t' -> Permutation t t' -> i = j.

(** the Euclidean length of a vector *)
Definition rlength (v : list R) : R := sqrt (fold_right Rplus 0 (map (fun x => x ^ 2) v)).
(** the singular value of a matrix with one row is its length *)
Definition accurate_svd (svd : list (list double) -> res (list double)) : Prop :=
  forall v, v <> [] -> (length v <= 64)%nat -> Forall (fun x => is_finite x = true /\ Rabs (B2R x) <= bpow radix2 400) v ->
    exists s, svd [v] = Ok [s] /\ is_finite s = true /\ 0 <= B2R s /\
      Rabs (B2R s - rlength (map B2R v)) <= bpow radix2 (-40) * rlength (map B2R v) + bpow radix2 (-500).

(** Nothing more is assumed about what the code does not determine. *)
Definition good_fenvironment (env : fenvironment) : Prop :=
  any_order (fe_order env) /\ any_order (fe_edges env) /\ (forall g, any_order (fe_shuffle env g)) /\
  (forall g pos dim, wf_graph g -> all_choices (neighbors g pos) dim (fe_tuples env g pos dim)) /\
  (forall l, summed l (fe_sum env l)) /\ (forall l, summed l (fe_column_sum env l)) /\
  accurate_svd (fe_svd env) /\ (forall x, fe_pow env x 1 = x).

(** Distances between real positions, as in [image_dist_sq] and [within_dist]. *)
Fixpoint image_sq (boxes : list (double * double)) (p q : list R) (ks : list Z) : R :=
  match boxes, p, q, ks with
  | b :: boxes', x :: p', y :: q', k :: ks' => (x - y - IZR k * fbox_size b) ^ 2 + image_sq boxes' p' q' ks'
  | _, _, _, _ => 0
  end.
Definition within (per : bool) (boxes : list (double * double)) (p q : list R) (d : R) : Prop :=
  exists ks, length ks = length boxes /\ (per = false -> Forall (fun k => k = 0%Z) ks) /\ image_sq boxes p q ks <= d ^ 2.
Definition place (p : list double) : list R := map B2R p.

(** allowance for rounding *)
Definition slack (boxes : list (double * double)) (fs : double) : R := bpow radix2 (-25) * (B2R fs + total_size boxes).
(** Every position is within [r] of one of the centres; different centres are further than
    [fs + 2 r] from each other; [r] is at most an eighth of the feature size (both with an allowance for
    rounding), and (with periodic boundary conditions) the box is longer than half of it in
    every direction. *)
Definition fisolated (per : bool) (boxes : list (double * double)) (fs : double) (r : R) (centres : list (list R)) (positions : list (list double)) : Prop :=
  Forall (fun c => length c = length boxes) centres /\ 0 <= r /\
  8 * r + slack boxes fs <= B2R fs /\
  (per = true -> Forall (fun b => B2R fs < 2 * fbox_size b) boxes) /\
  (forall c d, In c centres -> In d centres -> c <> d -> ~ within per boxes c d (B2R fs + 2 * r + slack boxes fs)) /\
  forall x, In x positions -> exists c, In c centres /\ within per boxes (place x) c r.
(** coordinates and limits of a size for which [connecting_vector] does not fail (C59) *)
Definition moderate_size (M : R) (boxes : list (double * double)) (fs : double) (positions : list (list double)) : Prop :=
  M <= bpow radix2 20 /\ B2R fs <= bpow radix2 20 /\ Forall (fun b => Rabs (B2R (fst b)) <= bpow radix2 20 /\ Rabs (B2R (snd b)) <= bpow radix2 20) boxes /\
  Forall (Forall (fun x => Rabs (B2R x) <= M)) positions /\ (length positions <= 2 ^ 20)%nat.
(** error of an average of [n] positions with coordinates up to [M] *)
Definition place_error (boxes : list (double * double)) (M : R) (n : nat) : R :=
  (bpow radix2 (-40) + INR n * bpow radix2 (-51)) * (total_size boxes + INR (length boxes) * M).

(** The identified object [i] is the centre [c]: a nodal point, placed within [r] of [c] up to
    rounding errors, that consists of the positions within [r] of [c]. *)
Definition fpoint_at (per : bool) (boxes : list (double * double)) (r M : R) (positions : list (list double)) (c : list R) (i : fident) : Prop :=
  fi_dimension i = Some 0%nat /\
  (exists a, fi_shape i = Some (FNodalPoint a) /\ length a = length boxes /\ Forall (fun x => is_finite x = true) a /\
     within per boxes (place a) c (r + place_error boxes M (length (fi_positions i))) /\
     (per = true -> Forall2 (fun b x => 0 <= B2R x <= fbox_size b) boxes a)) /\
  (forall x, In x (fi_positions i) -> In x positions) /\
  forall x, In x positions -> ((exists y, In y (fi_positions i) /\ same_place x y) <-> within per boxes (place x) c r).
