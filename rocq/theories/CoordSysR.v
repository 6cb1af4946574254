(** The real-valued distance of coordinate_system.py:70-79 and its relation to
    the squared rational distance used in the executable model. *)
From Verif Require Import Base BaseFacts CoordSys SpecGeom CoordSysFacts GeomCombined.
From Coq Require Import Reals Qreals Psatz.
From Coq Require Import Lra.
Open Scope R_scope.

(** embedding of the exact scalars into the reals *)
Definition Qc2R (x : Qc) : R := Q2R (this x).

Lemma Qc2R_add x y : Qc2R (x + y)%Qc = Qc2R x + Qc2R y.
Proof. unfold Qc2R. rewrite <- Q2R_plus. apply Qeq_eqR, this_add. Qed.
Lemma Qc2R_sub x y : Qc2R (x - y)%Qc = Qc2R x - Qc2R y.
Proof. unfold Qc2R. rewrite <- Q2R_minus. apply Qeq_eqR, this_sub. Qed.
Lemma Qc2R_mul x y : Qc2R (x * y)%Qc = Qc2R x * Qc2R y.
Proof. unfold Qc2R. rewrite <- Q2R_mult. apply Qeq_eqR, this_mul. Qed.
Lemma Qc2R_0 : Qc2R 0%Qc = 0.
Proof. unfold Qc2R, Q2R. simpl. lra. Qed.
Lemma Qc2R_lt x y : (x < y)%Qc <-> Qc2R x < Qc2R y.
Proof. unfold Qclt, Qc2R. split; [apply Qlt_Rlt | apply Rlt_Qlt]. Qed.
Lemma Qc2R_le x y : (x <= y)%Qc <-> Qc2R x <= Qc2R y.
Proof. unfold Qcle, Qc2R. split; [apply Qle_Rle | apply Rle_Qle]. Qed.

(** coordinate_system.py:70-79 [distance]: [la.norm] of the component deltas *)
Definition distance (cs : coordsys) (p q : point) : R := sqrt (Qc2R (dist_sq cs p q)).

(** Euclidean distance of two positions *)
Definition euclid (p q : point) : R := sqrt (Qc2R (euclid_sq p q)).

Lemma sqrt_lt_iff x c : 0 <= x -> (sqrt x < c <-> 0 < c /\ x < c * c).
Proof. intros Hx. split.
  - intros H. pose proof (sqrt_pos x). split; [lra|].
    rewrite <- (sqrt_sqrt x) by auto. nra.
  - intros [Hc H]. rewrite <- (sqrt_square c) by lra. apply sqrt_lt_1; nra. Qed.
Lemma sqrt_le_iff x c : 0 <= x -> (sqrt x <= c <-> 0 <= c /\ x <= c * c).
Proof. intros Hx. split.
  - intros H. pose proof (sqrt_pos x). split; [lra|].
    rewrite <- (sqrt_sqrt x) by auto. nra.
  - intros [Hc H]. rewrite <- (sqrt_square c) by lra. apply sqrt_le_1; nra. Qed.

Lemma Qc2R_dist_nonneg cs p q : 0 <= Qc2R (dist_sq cs p q).
Proof. rewrite <- Qc2R_0. apply Qc2R_le, dist_sq_nonneg. Qed.
Lemma Qc2R_euclid_nonneg p q : 0 <= Qc2R (euclid_sq p q).
Proof. rewrite <- Qc2R_0. apply Qc2R_le, euclid_sq_nonneg. Qed.

Lemma dist_lt_iff cs p q c : dist_lt cs p q c = true <-> distance cs p q < Qc2R c.
Proof. unfold dist_lt, distance. rewrite andb_true_iff, !ltb_spec, sqrt_lt_iff by apply Qc2R_dist_nonneg.
  rewrite !Qc2R_lt, Qc2R_mul, Qc2R_0. tauto. Qed.
Lemma dist_le_iff cs p q c : dist_le cs p q c = true <-> distance cs p q <= Qc2R c.
Proof. unfold dist_le, distance. rewrite andb_true_iff, !leb_spec, sqrt_le_iff by apply Qc2R_dist_nonneg.
  rewrite !Qc2R_le, Qc2R_mul, Qc2R_0. tauto. Qed.

(** Cauchy-Schwarz and Minkowski on lists of reals *)
Fixpoint rdot (a b : list R) : R :=
  match a, b with x :: a', y :: b' => x * y + rdot a' b' | _, _ => 0 end.
Lemma rdot_nonneg a : 0 <= rdot a a.
Proof. induction a; simpl; nra. Qed.
Lemma rdot_nil_r a : rdot a [] = 0. Proof. destruct a; reflexivity. Qed.
Lemma cs_step a b A B D : 0 <= A -> 0 <= B -> D * D <= A * B ->
  (a * b + D) * (a * b + D) <= (a * a + A) * (b * b + B).
Proof. intros HA HB HD. assert (2 * (a * b * D) <= a * a * B + b * b * A); [|nra].
  assert (K : (2 * (a * b * D))² <= (a * a * B + b * b * A)²).
  { unfold Rsqr. assert ((a * b) * (a * b) * (D * D) <= (a * b) * (a * b) * (A * B)).
    { apply Rmult_le_compat_l; [apply Rle_0_sqr | exact HD]. }
    assert (0 <= (a * a * B - b * b * A) * (a * a * B - b * b * A)) by apply Rle_0_sqr.
    replace ((a * a * B + b * b * A) * (a * a * B + b * b * A)) with
      ((a * a * B - b * b * A) * (a * a * B - b * b * A) + 4 * (a * b * (a * b) * (A * B))) by ring.
    replace (2 * (a * b * D) * (2 * (a * b * D))) with (4 * (a * b * (a * b) * (D * D))) by ring. lra. }
  apply Rsqr_incr_0_var in K; auto. assert (0 <= a * a) by apply Rle_0_sqr. assert (0 <= b * b) by apply Rle_0_sqr.
  apply Rplus_le_le_0_compat; apply Rmult_le_pos; auto. Qed.
Lemma cauchy_schwarz a b : length a = length b -> rdot a b * rdot a b <= rdot a a * rdot b b.
Proof. revert b. induction a as [|x a IH]; destruct b as [|y b]; simpl; intros; try lia; try lra.
  apply cs_step; [apply rdot_nonneg | apply rdot_nonneg | apply IH; lia]. Qed.
Fixpoint radd (a b : list R) : list R :=
  match a, b with x :: a', y :: b' => (x + y) :: radd a' b' | _, _ => [] end.
Lemma rdot_radd a b : length a = length b ->
  rdot (radd a b) (radd a b) = rdot a a + 2 * rdot a b + rdot b b.
Proof. revert b. induction a as [|x a IH]; destruct b as [|y b]; simpl; intros; try lia; try lra.
  rewrite IH by lia. ring. Qed.
Lemma minkowski a b : length a = length b ->
  sqrt (rdot (radd a b) (radd a b)) <= sqrt (rdot a a) + sqrt (rdot b b).
Proof. intros Hl. pose proof (rdot_nonneg a) as HA. pose proof (rdot_nonneg b) as HB.
  pose proof (sqrt_pos (rdot a a)). pose proof (sqrt_pos (rdot b b)).
  apply sqrt_le_iff; [apply rdot_nonneg|]. split; [lra|].
  rewrite rdot_radd by auto.
  assert (rdot a b <= sqrt (rdot a a) * sqrt (rdot b b)).
  { rewrite <- sqrt_mult by auto. destruct (Rle_dec 0 (rdot a b)) as [P|P].
    - rewrite <- (sqrt_square (rdot a b)) by auto. apply sqrt_le_1; try nra. apply cauchy_schwarz; auto.
    - pose proof (sqrt_pos (rdot a a * rdot b b)). lra. }
  pose proof (sqrt_sqrt (rdot a a) HA). pose proof (sqrt_sqrt (rdot b b) HB). nra. Qed.

Definition rdiff (p q : point) : list R := map2 (fun x y => Qc2R y - Qc2R x) p q.
Lemma euclid_rdiff p q : Qc2R (euclid_sq p q) = rdot (rdiff p q) (rdiff p q).
Proof. revert q. induction p as [|x p IH]; destruct q as [|y q]; simpl; try apply Qc2R_0.
  rewrite Qc2R_add, Qc2R_mul, Qc2R_sub, IH. reflexivity. Qed.
Lemma rdiff_radd p q r : length p = length q -> length q = length r ->
  rdiff p r = radd (rdiff p q) (rdiff q r).
Proof. unfold rdiff. revert q r. induction p as [|x p IH]; destruct q as [|y q], r as [|z r]; simpl; intros; try lia; auto.
  rewrite (IH q r) by lia. f_equal. lra. Qed.
Lemma euclid_triangle p q r : length p = length q -> length q = length r ->
  euclid p r <= euclid p q + euclid q r.
Proof. intros. unfold euclid. rewrite !euclid_rdiff, (rdiff_radd p q r) by auto. apply minkowski.
  unfold rdiff. rewrite !map2_length; auto. Qed.

Lemma distance_le_euclid cs p p' q : periodic cs = true -> wf_box cs -> is_pos cs q ->
  lattice_eq cs p p' -> distance cs p q <= euclid p' q.
Proof. intros Per Hw Hq [ks H]. apply sqrt_le_1_alt. apply Qc2R_le. eapply dist_sq_minimal; eauto. Qed.
Lemma distance_attained cs p q : periodic cs = true -> wf_box cs -> is_pos cs p -> is_pos cs q ->
  exists p', lattice_eq cs p p' /\ distance cs p q = euclid p' q.
Proof. intros Per Hw Hp Hq. destruct (dist_sq_attained cs p q) as (ks & p' & H & E); auto.
  exists p'. split; [exists ks; auto|]. unfold distance, euclid. rewrite E. reflexivity. Qed.

Lemma distance_triangle cs p q r : wf_box cs -> is_pos cs p -> is_pos cs q -> is_pos cs r ->
  distance cs p r <= distance cs p q + distance cs q r.
Proof. intros Hw Hp Hq Hr. destruct (periodic cs) eqn:Per.
  - destruct (distance_attained cs p q) as (p' & Hp' & E1); auto.
    destruct (distance_attained cs q r) as (q' & [ks Hq'] & E2); auto.
    pose proof (lattice_eq_is_pos _ _ _ Hp') as [_ Lp'].
    pose proof (shifted_length _ _ _ _ Hq') as (Lk & _ & Lq').
    destruct (@shifted_exists (limits cs) ks p' Lk Lp') as [p'' Hp''].
    pose proof (shifted_length _ _ _ _ Hp'') as (_ & _ & Lp'').
    assert (E3 : euclid p'' q' = euclid p' q).
    { unfold euclid. f_equal. f_equal. eapply euclid_sq_shift; eauto. }
    rewrite E1, E2, <- E3. eapply Rle_trans.
    + apply (distance_le_euclid cs p p'' r); auto. eapply lattice_eq_trans; [exact Hp'|exists ks; auto].
    + unfold is_pos in *. apply euclid_triangle; congruence.
  - unfold distance. rewrite !dist_sq_nonper by auto. unfold is_pos in *. apply euclid_triangle; congruence. Qed.

Lemma distance_spec cs p q : wf_box cs -> is_pos cs p -> is_pos cs q ->
  if periodic cs
  then (forall p', lattice_eq cs p p' -> distance cs p q <= euclid p' q) /\
       (exists p', lattice_eq cs p p' /\ distance cs p q = euclid p' q)
  else distance cs p q = euclid p q.
Proof. intros Hw Hp Hq. destruct (periodic cs) eqn:Per.
  - split; [intros p' H; apply distance_le_euclid; auto | apply distance_attained; auto].
  - unfold distance, euclid. rewrite dist_sq_nonper by auto. reflexivity. Qed.

Lemma distance_nonneg cs p q : 0 <= distance cs p q.
Proof. apply sqrt_pos. Qed.
Lemma distance_sym cs p q : wf_box cs -> is_pos cs p -> is_pos cs q -> distance cs p q = distance cs q p.
Proof. intros. unfold distance. rewrite dist_sq_sym by auto. reflexivity. Qed.
Lemma distance_lattice cs p p' q q' : periodic cs = true -> wf_box cs ->
  lattice_eq cs p p' -> lattice_eq cs q q' -> distance cs p q = distance cs p' q'.
Proof. intros Per Hw Hp Hq. pose proof (lattice_eq_is_pos _ _ _ Hp). pose proof (lattice_eq_is_pos _ _ _ Hq).
  unfold distance. rewrite (dist_sq_lattice_l cs p p' q), (dist_sq_lattice_r cs p' q q') by tauto. reflexivity. Qed.
Lemma distance_normalize cs p q : wf_box cs -> is_pos cs p -> is_pos cs q ->
  distance cs (normalize_position cs p) q = distance cs p q /\
  distance cs p (normalize_position cs q) = distance cs p q.
Proof. intros Hw Hp Hq. destruct (periodic cs) eqn:Per.
  - split; apply distance_lattice; auto using lattice_eq_refl, lattice_eq_sym, normalize_shifted.
  - rewrite !normalize_nonper by auto. auto. Qed.
Lemma distance_zero cs p q : wf_box cs -> is_pos cs p -> is_pos cs q ->
  (distance cs p q = 0 <-> if periodic cs then lattice_eq cs p q else p = q).
Proof. intros Hw Hp Hq. rewrite <- dist_zero_iff by auto. unfold distance. split.
  - intros E. apply sqrt_eq_0 in E; [|apply Qc2R_dist_nonneg].
    apply Qcle_antisym; [|apply dist_sq_nonneg]. apply Qc2R_le. rewrite E, Qc2R_0. lra.
  - intros ->. rewrite Qc2R_0. apply sqrt_0. Qed.
