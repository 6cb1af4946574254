(** Property theorems C01-C06: coordinate systems.  Specification vocabulary
    ([wf_box], [is_pos], [in_box], [lattice_eq], [euclid_sq], [len_sq],
    [mean_coord], [within_half]) is in SpecGeom.v; [distance] and [euclid] (over
    the reals) in CoordSysR.v. *)
From Verif Require Import Base CoordSys SpecGeom CoordSysFacts AverageFacts GeomCombined CoordSysR.
From Coq Require Import Reals.
Open Scope Qc_scope.

(** *** C01 *)
Theorem C01_normalize_position : forall cs p, wf_box cs -> is_pos cs p ->
  (periodic cs = true -> in_box cs (normalize_position cs p) /\ lattice_eq cs p (normalize_position cs p)) /\
  (periodic cs = false -> normalize_position cs p = p) /\
  normalize_position cs (normalize_position cs p) = normalize_position cs p.
Proof. exact normalize_spec. Qed.
Print Assumptions C01_normalize_position.

(** the normalised position is a canonical representative *)
Theorem C01_normalize_canonical : forall cs p q, periodic cs = true -> wf_box cs -> is_pos cs p -> is_pos cs q ->
  (normalize_position cs p = normalize_position cs q <-> lattice_eq cs p q).
Proof. exact normalize_canonical. Qed.
Print Assumptions C01_normalize_canonical.

(** every constructor call with two different limits per dimension gives a
    well-formed box, in whichever order the limits are passed *)
Theorem C01_constructor_wf : forall lims per,
  Forall (fun l => fst l <> snd l) lims -> wf_box (coordinate_system lims per).
Proof. exact coordinate_system_wf. Qed.
Print Assumptions C01_constructor_wf.

(** *** C02 *)
Theorem C02_fractional_round_trip : forall cs p, wf_box cs -> is_pos cs p ->
  get_pos cs (get_frac cs p) = normalize_position cs p /\
  get_frac cs (get_pos cs p) = map (fun x => if periodic cs then x - qc (qfloor x) else x) p /\
  (periodic cs = true -> Forall (fun f => 0 <= f /\ f < 1) (get_frac cs p)).
Proof. exact frac_spec. Qed.
Print Assumptions C02_fractional_round_trip.

(** *** C03 *)
Theorem C03_minimum_image : forall cs p q, wf_box cs -> is_pos cs p -> is_pos cs q ->
  if periodic cs
  then (forall p', lattice_eq cs p p' -> (distance cs p q <= euclid p' q)%R) /\
       (exists p', lattice_eq cs p p' /\ distance cs p q = euclid p' q)
  else distance cs p q = euclid p q.
Proof. exact distance_spec. Qed.
Print Assumptions C03_minimum_image.

(** the executable comparisons used by the rest of the model decide the real
    distance *)
Theorem C03_comparison_lt : forall cs p q c,
  dist_lt cs p q c = true <-> (distance cs p q < Qc2R c)%R.
Proof. exact dist_lt_iff. Qed.
Print Assumptions C03_comparison_lt.
Theorem C03_comparison_le : forall cs p q c,
  dist_le cs p q c = true <-> (distance cs p q <= Qc2R c)%R.
Proof. exact dist_le_iff. Qed.
Print Assumptions C03_comparison_le.

(** *** C04 *)
Theorem C04_triangle : forall cs p q r, wf_box cs -> is_pos cs p -> is_pos cs q -> is_pos cs r ->
  (distance cs p r <= distance cs p q + distance cs q r)%R.
Proof. exact distance_triangle. Qed.
Print Assumptions C04_triangle.
Theorem C04_symmetric : forall cs p q, wf_box cs -> is_pos cs p -> is_pos cs q ->
  distance cs p q = distance cs q p.
Proof. exact distance_sym. Qed.
Print Assumptions C04_symmetric.
Theorem C04_nonneg : forall cs p q, (0 <= distance cs p q)%R.
Proof. exact distance_nonneg. Qed.
Print Assumptions C04_nonneg.
Theorem C04_lattice_invariant : forall cs p p' q q', periodic cs = true -> wf_box cs ->
  lattice_eq cs p p' -> lattice_eq cs q q' -> distance cs p q = distance cs p' q'.
Proof. exact distance_lattice. Qed.
Print Assumptions C04_lattice_invariant.
Theorem C04_normalize_invariant : forall cs p q, wf_box cs -> is_pos cs p -> is_pos cs q ->
  distance cs (normalize_position cs p) q = distance cs p q /\
  distance cs p (normalize_position cs q) = distance cs p q.
Proof. exact distance_normalize. Qed.
Print Assumptions C04_normalize_invariant.
Theorem C04_zero : forall cs p q, wf_box cs -> is_pos cs p -> is_pos cs q ->
  (distance cs p q = 0%R <-> if periodic cs then lattice_eq cs p q else p = q).
Proof. exact distance_zero. Qed.
Print Assumptions C04_zero.

(** *** C05 *)
Theorem C05_connecting_vector : forall cs p q, wf_box cs -> is_pos cs p -> is_pos cs q ->
  exists v, connecting_vector cs p q = Ok v /\ is_pos cs v /\
    (if periodic cs then lattice_eq cs q (vadd p v) else vadd p v = q) /\
    len_sq v = dist_sq cs p q /\
    (periodic cs = true -> Forall2 (fun l c => qabs c <= (snd l - fst l) * half) (limits cs) v).
Proof. exact connecting_vector_spec. Qed.
Print Assumptions C05_connecting_vector.

(** *** C06 *)
Theorem C06_average_nonperiodic : forall cs ps, periodic cs = false -> Forall (is_pos cs) ps -> ps <> [] ->
  exists a, average cs ps = Ok a /\ is_pos cs a /\
    forall i, (i < dim cs)%nat -> nth i a 0 = mean_coord i ps.
Proof. exact average_nonper. Qed.
Print Assumptions C06_average_nonperiodic.
Theorem C06_average_periodic : forall cs o ps, periodic cs = true -> wf_box cs -> Forall (is_pos cs) (o :: ps) ->
  exists a vs m, average cs (o :: ps) = Ok a /\
    Forall2 (fun p v => connecting_vector cs o p = Ok v) (o :: ps) vs /\
    is_pos cs m /\ (forall i, (i < dim cs)%nat -> nth i m 0 = mean_coord i vs) /\
    lattice_eq cs (vadd o m) a /\
    Forall2 (fun l x => 0 <= x /\ x < snd l - fst l) (limits cs) a.
Proof. exact average_periodic. Qed.
Print Assumptions C06_average_periodic.
Theorem C06_average_image_independent : forall cs ps ps', periodic cs = true -> wf_box cs ->
  Forall2 (lattice_eq cs) ps ps' -> average cs ps = average cs ps'.
Proof. exact average_per_lattice. Qed.
Print Assumptions C06_average_image_independent.
(** for a tight cluster (pairwise closer than half a period in every
    coordinate) the average is the ordinary mean, modulo the lattice *)
Theorem C06_average_tight_cluster : forall cs ps, periodic cs = true -> wf_box cs ->
  Forall (is_pos cs) ps -> ps <> [] ->
  (forall p q, In p ps -> In q ps -> within_half cs p q) ->
  exists a, average cs ps = Ok a /\ lattice_eq cs (mean (dim cs) ps) a.
Proof. exact average_tight. Qed.
Print Assumptions C06_average_tight_cluster.
(** finding: the average of points inside the limits can be outside *)
Theorem C06_average_in_box_refuted :
  exists cs ps a, periodic cs = true /\ wf_box cs /\ Forall (is_pos cs) ps /\
  Forall (in_box cs) ps /\ ps <> [] /\ average cs ps = Ok a /\ ~ in_box cs a.
Proof. exact average_out_of_box. Qed.
Print Assumptions C06_average_in_box_refuted.

(** *** Non-vacuity: a two-dimensional box with unequal sizes and a negative
    lower limit, points inside and outside. *)
Definition ex_cs (per : bool) : coordsys := coordinate_system [(qc 1, qc (-1)); (qc 2, qc 5)] per.
Example ex_cs_wf per : wf_box (ex_cs per).
Proof. apply C01_constructor_wf. repeat constructor; discriminate. Qed.
Example ex_pos per : is_pos (ex_cs per) [qc 7; qc (-3)].
Proof. reflexivity. Qed.
Example ex_normalize : normalize_position (ex_cs true) [qc 7; qc (-3)] = [qc (-1); qc 3].
Proof. vm_compute. reflexivity. Qed.
Example ex_lattice : lattice_eq (ex_cs true) [qc 7; qc (-3)] [qc (-1); qc 3].
Proof. rewrite <- ex_normalize. apply C01_normalize_position; auto using ex_cs_wf, ex_pos. Qed.
Example ex_conn : connecting_vector (ex_cs true) [qc 0; qc 2] [qc 7; qc (-3)] = Ok [qc 1; qc 1].
Proof. vm_compute. reflexivity. Qed.
Example ex_dist : dist_sq (ex_cs true) [qc 0; qc 2] [qc 7; qc (-3)] = qc 2.
Proof. vm_compute. reflexivity. Qed.
Example ex_tight : forall p q, In p [[qc 0; qc 2]; [half; qc 3]] -> In q [[qc 0; qc 2]; [half; qc 3]] ->
  within_half (ex_cs true) p q.
Proof. intros p q [<-|[<-|[]]] [<-|[<-|[]]]; repeat constructor. Qed.
