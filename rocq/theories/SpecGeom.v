(** Independent specification vocabulary for the geometry properties. *)
From Verif Require Import Base CoordSys.
Open Scope Qc_scope.

(** Every dimension of the box has positive extent (what the code needs to
    avoid dividing by zero). *)
Definition wf_box (cs : coordsys) : Prop := Forall (fun l => fst l < snd l) (limits cs).

(** A position with one coordinate per dimension. *)
Definition is_pos (cs : coordsys) (p : point) : Prop := length p = length (limits cs).

(** [q] is [p] translated by [k_i] periods in each dimension [i]. *)
Inductive shifted : list (Qc * Qc) -> list Z -> point -> point -> Prop :=
| shifted_nil : shifted [] [] [] []
| shifted_cons lo hi ls k ks x p q :
    shifted ls ks p q ->
    shifted ((lo, hi) :: ls) (k :: ks) (x :: p) (x + qc k * (hi - lo) :: q).

(** Equality modulo the lattice of periods. *)
Definition lattice_eq (cs : coordsys) (p q : point) : Prop :=
  exists ks, shifted (limits cs) ks p q.

(** Inside the half-open box [lower, upper). *)
Definition in_box (cs : coordsys) (p : point) : Prop :=
  Forall2 (fun l x => fst l <= x /\ x < snd l) (limits cs) p.

(** Squared Euclidean distance. *)
Fixpoint euclid_sq (p q : point) : Qc :=
  match p, q with
  | x :: p', y :: q' => (y - x) * (y - x) + euclid_sq p' q'
  | _, _ => 0
  end.

(** Arithmetic mean of one coordinate. *)
Definition mean1 (xs : list Qc) : Qc := qsum xs / qc (Z.of_nat (length xs)).

(** Coordinate-wise closer than half a period. *)
Definition within_half (cs : coordsys) (p q : point) : Prop :=
  Forall2 (fun l d => qabs d < (snd l - fst l) * half) (limits cs) (vsub q p).

(** Coordinate [i] of the arithmetic mean. *)
Definition mean_coord (i : nat) (ps : list point) : Qc := mean1 (map (fun p => nth i p 0) ps).

(** Squared length of a vector: squared distance from the origin. *)
Definition len_sq (v : point) : Qc := euclid_sq (repeat 0 (length v)) v.
