(** Specification vocabulary for local dimensions in double precision (C74). *)
From Coq Require Import ZArith Reals List Permutation.
From Flocq Require Import Core BinarySingleNaN.
From Verif Require Import Base Graph SpecGraph CoordSysR Float FloatVector FloatMin FloatCell SpecFloatCell FloatCluster SpecFloatCluster FloatIdentify SpecFloatIdentify.
Import ListNotations.
Open Scope list_scope.
Open Scope R_scope.

(** ** Volumes of parallelepipeds: base times height (as in SpecVolume.v, for real vectors) *)
(** [h + a_1 v_1 + ... + a_k v_k] *)
Fixpoint rcombined (h : list R) (coeffs : list R) (vs : list (list R)) : list R :=
  match coeffs, vs with
  | a :: coeffs', v :: vs' => radd (rcombined h coeffs' vs') (map (Rmult a) v)
  | _, _ => h
  end.
(** the vectors span a parallelepiped of this volume ([rdot] is the scalar product, [rlength] the length) *)
Inductive rspanned : list (list R) -> R -> Prop :=
| rspanned_nil : rspanned [] 1
| rspanned_cons v vs base h coeffs : rspanned vs base -> length h = length v -> length coeffs = length vs ->
    v = rcombined h coeffs vs -> Forall (fun w => rdot h w = 0) vs -> rspanned (v :: vs) (rlength h * base).

(** ** Singular values *)
(** the rows are orthonormal *)
Definition orthonormal (u : list (list R)) : Prop :=
  forall i j a b, nth_error u i = Some a -> nth_error u j = Some b -> rdot a b = if Nat.eqb i j then 1 else 0.
(** [s] are the singular values of the k x n matrix with the rows [m] (k <= n): with an
    orthogonal matrix U, the rows of U m are perpendicular to each other, and have the lengths [s] *)
Definition singular_values (n : nat) (m : list (list R)) (s : list R) : Prop :=
  exists u, length u = length m /\ Forall (fun a => length a = length m) u /\ orthonormal u /\
    let rows := map (fun a => rcombined (repeat 0 n) a m) u in
    Forall2 (fun r x => rlength r = x) rows s /\
    forall i j a b, nth_error rows i = Some a -> nth_error rows j = Some b -> i <> j -> rdot a b = 0.
(** [scipy.linalg.svd] returns the singular values of [m] up to rounding *)
Definition accurate_svd_of (svd : list (list double) -> res (list double)) (n : nat) (m : list (list double)) : Prop :=
  exists s exact, svd m = Ok s /\ length s = length m /\ singular_values n (map place m) exact /\
    Forall2 (fun x y => is_finite x = true /\ 0 <= B2R x /\ Rabs (B2R x - y) <= bpow radix2 (-40) * fold_right Rplus 0 exact + bpow radix2 (-500)) s exact.
(** [x ** n] *)
Definition accurate_pow (pow : double -> nat -> double) : Prop :=
  forall x n, (n <= 3)%nat -> is_finite x = true -> bpow radix2 (-100) <= B2R x <= bpow radix2 20 ->
    is_finite (pow x n) = true /\ Rabs (B2R (pow x n) - B2R x ^ n) <= bpow radix2 (-50) * B2R x ^ n.

(** ** Connecting vectors *)
(** the difference of the positions [p] and [q], shifted by multiples of the box sizes *)
Fixpoint image_diff (boxes : list (double * double)) (p q : list R) (ks : list Z) : list R :=
  match boxes, p, q, ks with
  | b :: boxes', x :: p', y :: q', k :: ks' => (x - y - IZR k * fbox_size b) :: image_diff boxes' p' q' ks'
  | _, _, _, _ => []
  end.
(** [v] leads from (a periodic image of) [q] to [p], and is as short as possible up to rounding errors *)
Definition leads (per : bool) (boxes : list (double * double)) (p q : list double) (v : list R) : Prop :=
  (exists ks, length ks = length boxes /\ (per = false -> Forall (fun k => k = 0%Z) ks) /\ v = image_diff boxes (place p) (place q) ks) /\
  forall d, 0 <= d -> within_dist per boxes p q d -> rlength v <= d + bpow radix2 (-38) * total_size boxes.
(** the volume spanned by the vectors leading from the positions [t] to [p] *)
Definition rconnected_volume (per : bool) (boxes : list (double * double)) (p : list double) (t : list (list double)) (vol : R) : Prop :=
  exists vs, Forall2 (leads per boxes p) t vs /\ rspanned vs vol.
(** different choices of [dim] elements of [l] *)
Definition different_choices {A} (l : list A) (dim : nat) (ts : list (list A)) : Prop :=
  Forall (choice_of l dim) ts /\ forall i j t t', nth_error ts i = Some t -> nth_error ts j = Some t' -> Permutation t t' -> i = j.

(** the singular values of the vectors connecting two or three of the positions [nbrs] with [p] (not
    more than there are dimensions) are accurate *)
Definition accurate_svds (svd : list (list double) -> res (list double)) (per : bool) (boxes : list (double * double)) (nbrs : list (list double)) (p : list double) : Prop :=
  forall t vs, NoDup t -> incl t nbrs -> (2 <= length t <= 3)%nat -> (length t <= length boxes)%nat ->
    Forall2 (fun q v => fvector per boxes q p = Ok v) t vs -> accurate_svd_of svd (length boxes) vs.
(** [v] differs by at most [h] from a linear combination of the vectors [us]: the distance from the line
    or plane they span is at most [h] *)
Definition near_span (us : list (list R)) (h : R) (v : list R) : Prop :=
  exists coeffs e, length coeffs = length us /\ length e = length v /\ v = rcombined e coeffs us /\ rlength e <= h.
