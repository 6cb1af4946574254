(** Specification vocabulary for the dimension of a cluster. *)
From Verif Require Import Base CoordSys SpecGeom CoordSysR Graph SpecGraph Dimension.
From Coq Require Import Reals Sorted.
Open Scope list_scope.

(** [random.sample(neighbours, k=dim)] returns [k] different elements. *)
Definition sample_of (l : list point) (k : nat) (t : tuple) : Prop :=
  NoDup t /\ incl t l /\ length t = k.
(** The random generator behaves as documented. *)
Record good_rng (r : rng) (l : list point) (k : nat) : Prop := {
  gr_draws : Forall (sample_of l k) (draws r);
  gr_shuffle : forall s, Permutation (shuffle r s) s
}.
(** The lexicographic order of tuples (Python's [<=] on tuples). *)
Definition lex_le (x y : point) : Prop := lex_leb ltb x y = true.
(** A combination of [k] of the elements of [l], written in ascending order. *)
Definition combination (l : list point) (k : nat) (t : tuple) : Prop :=
  sample_of l k t /\ StronglySorted lex_le t.

(** Number of positions in [ps] with local dimension [d]. *)
Definition votes (local : point -> res nat) (d : nat) (ps : list point) : nat :=
  length (filter (fun p => match local p with Ok d' => Nat.eqb d' d | Err _ => false end) ps).
(** At least two thirds of [ps] have local dimension [d]. *)
Definition two_thirds (local : point -> res nat) (d : nat) (ps : list point) : Prop :=
  (2 * length ps <= 3 * votes local d ps)%nat.

(** [v] is a multiple of [u] *)
Definition multiple_of (u v : point) : Prop := exists a : Qc, v = map (Qcmult a) u.
(** [v] is a combination of [u1] and [u2] *)
Definition in_plane (u1 u2 v : point) : Prop := exists a b : Qc, v = vadd (map (Qcmult a) u1) (map (Qcmult b) u2).
(** All vectors connecting neighbours satisfy [P] *)
Definition all_connections {W} (cs : coordsys) (g : graph point W) (P : point -> Prop) : Prop :=
  forall p q v, has_edge g p q -> connecting_vector cs p q = Ok v -> P v.
