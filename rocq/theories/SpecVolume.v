(** Specification vocabulary for the volume test that determines local dimensions (C71). *)
From Coq Require Import Reals.
From Coquelicot Require Import Hierarchy RInt Continuity.
From Verif Require Import Base CoordSys SpecGeom CoordSysR.
Open Scope list_scope.

(** ** Volume of a parallelepiped: base times height *)
Definition perpendicular (v w : point) : Prop := qsum (map2 Qcmult v w) = 0%Qc.
(** [h + a_1 v_1 + ... + a_k v_k] *)
Fixpoint combined (h : point) (coeffs : list Qc) (vs : list point) : point :=
  match coeffs, vs with
  | a :: coeffs', v :: vs' => vadd (combined h coeffs' vs') (map (Qcmult a) v)
  | _, _ => h
  end.
(** [spanned_volume vs vol]: the vectors [vs] span a parallelepiped of volume [vol] *)
Inductive spanned_volume : list point -> R -> Prop :=
| volume_nil : spanned_volume [] 1
| volume_cons v vs base h coeffs : spanned_volume vs base ->
    length h = length v -> length coeffs = length vs -> v = combined h coeffs vs -> Forall (perpendicular h) vs ->
    spanned_volume (v :: vs) (sqrt (Qc2R (len_sq h)) * base).

Open Scope R_scope.
(** ** Means over the points of a ball of radius [a] around the origin of R^k, k = 1, 2, 3:
    the integral divided by the volume of the ball, in polar coordinates *)
Definition mean_interval (f : R -> R) (a m : R) : Prop := is_RInt f (- a) a (2 * a * m).
Definition mean_disk (f : R -> R -> R) (a m : R) : Prop :=
  exists g, (forall r, 0 <= r -> is_RInt (fun phi => f (r * cos phi) (r * sin phi) * r) 0 (2 * PI) (g r)) /\
            is_RInt g 0 a (PI * a ^ 2 * m).
Definition mean_ball (f : R -> R -> R -> R) (a m : R) : Prop :=
  exists g h, (forall r t, 0 <= r -> 0 <= t <= PI ->
      is_RInt (fun phi => f (r * sin t * cos phi) (r * sin t * sin phi) (r * cos t) * (r ^ 2 * sin t)) 0 (2 * PI) (h r t)) /\
    (forall r, 0 <= r -> is_RInt (h r) 0 PI (g r)) /\ is_RInt g 0 a (4 / 3 * PI * a ^ 3 * m).

(** [mean_volume k a v]: [v] is the mean volume of the parallelepiped spanned by [k]
    independent uniformly distributed points of the ball of radius [a] in R^k: the product
    of the mean distances of such points from the origin, from a line (for k >= 2) and from a
    plane (for k = 3), as every height is a distance from the subspace spanned by the previous vectors
    and the distribution is the same in all directions. *)
Definition mean_volume (k : nat) (a v : R) : Prop :=
  match k with
  | 1%nat => mean_interval (fun x => Rabs x) a v
  | 2%nat => exists m0 m1, mean_disk (fun x y => sqrt (x ^ 2 + y ^ 2)) a m0 /\ mean_disk (fun x y => Rabs y) a m1 /\ v = m0 * m1
  | 3%nat => exists m0 m1 m2, mean_ball (fun x y z => sqrt (x ^ 2 + y ^ 2 + z ^ 2)) a m0 /\ mean_ball (fun x y z => sqrt (x ^ 2 + y ^ 2)) a m1 /\
                              mean_ball (fun x y z => Rabs z) a m2 /\ v = m0 * m1 * m2
  | _ => False
  end.
(** arithmetic mean, and standard error of the mean *)
Definition mean (l : list R) : R := fold_right Rplus 0 l / INR (length l).
Definition standard_error (l : list R) : R :=
  sqrt (fold_right Rplus 0 (map (fun x => (x - mean l) ^ 2) l) / INR (length l) / (INR (length l) - 1)).
