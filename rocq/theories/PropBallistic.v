(** C47: the ballistic method. *)
From Verif Require Import Base BaseFacts CoordSys SpecGeom CoordSysFacts GeomCombined CoordSysR Graph SpecGraph GraphFacts Cluster SpecCluster ClusterFacts PropCluster Dimension VolumeFacts LocalDim Ballistic BallisticFacts.
From Coq Require Import Reals Psatz.
From Coq Require Import Lra.
Open Scope list_scope.

Lemma dist_sq_0 cs p q : dist_sq cs p q = 0%Qc <-> distance cs p q = 0%R.
Proof. unfold distance. split; intros H.
  - rewrite H, Qc2R_0. apply sqrt_0.
  - apply sqrt_eq_0 in H; [|apply Qc2R_dist_nonneg]. apply Qcle_antisym; [apply Qc2R_le; rewrite H, Qc2R_0; lra|apply dist_sq_nonneg]. Qed.

(** in a cluster that does not consist of images of one point every position has a
    neighbour at non-zero distance *)
Lemma cluster_spread order eorder cs fs positions c x y : any_order order -> any_order eorder -> wf_box cs -> Forall (is_pos cs) positions ->
  In c (create_clusters order eorder cs fs positions) -> In x (g_nodes c) -> In y (g_nodes c) -> distance cs x y <> 0%R -> spread cs c.
Proof. intros O EO B P Ic Ix Iy D u Iu. destruct (C43_edges order eorder cs fs positions c O EO B P Ic) as (Wf & _ & Ed & _).
  assert (Ps : forall z, In z (g_nodes c) -> is_pos cs z).
  { intros z Iz. apply (proj1 (Forall_forall _ _) P). apply (proj1 (C41_partition order eorder cs fs positions O EO B P)). apply in_concat. exists (g_nodes c). split; auto. apply in_map; auto. }
  destruct (existsb (fun z => negb (eqb (dist_sq cs u z) 0%Qc)) (neighbors c u)) eqn:E.
  - apply existsb_exists in E as (z & Iz & E). exists z. split; [apply in_neighbors; auto|]. apply negb_true_iff in E. unfold eqb in E. destruct (eq_dec _ _) in E; [discriminate|auto].
  - exfalso. assert (Zn : forall z, has_edge c u z -> distance cs u z = 0%R).
    { intros z Ez. apply dist_sq_0. destruct (eq_dec (dist_sq cs u z) 0%Qc) as [|N]; auto. exfalso.
      assert (X : existsb (fun z => negb (eqb (dist_sq cs u z) 0%Qc)) (neighbors c u) = true); [|congruence]. apply existsb_exists. exists z. split; [apply in_neighbors; auto|].
      unfold eqb. destruct (eq_dec (dist_sq cs u z) 0%Qc); [contradiction|auto]. }
    assert (Self : distance cs u u = 0%R) by (apply (distance_zero cs u u B (Ps u Iu) (Ps u Iu)); destruct (periodic cs); [apply lattice_eq_refl; auto|auto]).
    assert (Za : forall z, In z (g_nodes c) -> distance cs u z = 0%R).
    { intros z Iz. pose proof (cluster_connected order eorder cs fs positions O EO B P c Ic u z Iu Iz) as L.
      apply (linked_closed (R := has_edge c) (fun z => distance cs u z = 0%R)) with u; auto. intros a b Ha Eab. destruct (wf_ends Wf Eab) as (Ia & Ib). destruct (eq_dec u b) as [<-|Nub]; auto. apply Zn.
      apply Ed; auto. split; auto. apply (Ed a b Ia Ib) in Eab. pose proof (distance_triangle cs u a b B (Ps u Iu) (Ps a Ia) (Ps b Ib)). lra. }
    apply D. pose proof (distance_triangle cs x u y B (Ps x Ix) (Ps u Iu) (Ps y Iy)) as T. rewrite (distance_sym cs x u) in T by auto. rewrite (Za x Ix), (Za y Iy) in T.
    pose proof (sqrt_pos (Qc2R (dist_sq cs x y))) as Pos. fold (distance cs x y) in Pos. lra. Qed.

(** On a cluster that does not consist of images of one point, the method ends without
    exception; the line lies on the graph of the cluster (with all steps of non-zero
    length), and every position of the cluster is on the line or adjacent to it. *)
Theorem C47_cluster : forall order eorder pick cs fs positions c x y, any_order order -> any_order eorder -> any_order pick -> wf_box cs -> Forall (is_pos cs) positions ->
  In c (create_clusters order eorder cs fs positions) -> In x (g_nodes c) -> In y (g_nodes c) -> distance cs x y <> 0%R ->
  exists r, evaluate_line_ballistic pick cs (Qc2R fs) c = Ok r /\ wf_graph r /\ part_of r c /\ dominates c (g_nodes r) /\
    forall u v, has_edge r u v -> (0 < distance cs u v <= Qc2R fs)%R.
Proof. intros order eorder pick cs fs positions c x y O EO Pk B P Ic Ix Iy D. destruct (C43_edges order eorder cs fs positions c O EO B P Ic) as (Wf & _ & Ed & _).
  assert (Ps : Forall (is_pos cs) (g_nodes c)).
  { apply Forall_forall. intros z Iz. apply (proj1 (Forall_forall _ _) P). apply (proj1 (C41_partition order eorder cs fs positions O EO B P)). apply in_concat. exists (g_nodes c). split; auto. apply in_map; auto. }
  pose proof (cluster_spread order eorder cs fs positions c x y O EO B P Ic Ix Iy D) as Sp.
  destruct (ballistic_ok pick cs (Qc2R fs) c Pk B Wf Ps Sp) as (r & E & Wr & Inc & Er & Dom). exists r. split; auto. split; auto. split; [split; auto; intros u v Huv; apply Er; auto|]. split; auto.
  intros u v Huv. destruct (Er u v Huv) as (Eg & Nz). destruct (wf_ends Wf Eg). apply Ed in Eg as (_ & L); auto. split; auto.
  assert (distance cs u v <> 0%R) by (rewrite <- dist_sq_0; auto). pose proof (distance_nonneg cs u v). lra. Qed.
Print Assumptions C47_cluster.
(** The same on any graph in which every node has a neighbour at non-zero distance. *)
Theorem C47_graph : forall pick cs fs (g : graph point R), any_order pick -> wf_box cs -> wf_graph g -> Forall (is_pos cs) (g_nodes g) ->
  (forall x, In x (g_nodes g) -> exists y, has_edge g x y /\ distance cs x y <> 0%R) ->
  exists r, evaluate_line_ballistic pick cs fs g = Ok r /\ wf_graph r /\ part_of r g /\ dominates g (g_nodes r).
Proof. intros pick cs fs g Pk B Wf Ps Sp. assert (Sp' : spread cs g). { intros x Ix. destruct (Sp x Ix) as (y & E & N). exists y. split; auto. rewrite dist_sq_0. auto. }
  destruct (ballistic_ok pick cs fs g Pk B Wf Ps Sp') as (r & E & Wr & Inc & Er & Dom). exists r. split; auto. split; auto. split; [split; auto; intros u v Huv; apply Er; auto|]. auto. Qed.
Print Assumptions C47_graph.

(** Finding: if the first position has only neighbours at distance zero (images of
    itself under the periodicity), the method fails with an AssertionError, which
    [identify] does not catch. *)
Theorem C47_images_refuted : forall pick cs fs (g : graph point R), any_order pick -> wf_box cs -> wf_graph g -> Forall (is_pos cs) (g_nodes g) -> g_nodes g <> [] ->
  (forall x, In x (g_nodes g) -> neighbors g x <> []) -> (forall x y, has_edge g x y -> distance cs x y = 0%R) ->
  evaluate_line_ballistic pick cs fs g = Err AssertionError.
Proof. intros pick cs fs g Pk B Wf Ps Ne Nb Z. unfold evaluate_line_ballistic, evaluate_line_ballistic_with. rewrite Nat.add_1_r. cbn [run_loop b_result].
  assert (D : is_dominating_set g (g_nodes (@empty_graph point unit)) = false).
  { apply not_true_iff_false. intros X. apply is_dominating_spec in X; [|intros z []]. destruct (g_nodes g) as [|z l] eqn:En; [congruence|]. destruct (X z) as [[]|(y & [] & _)]. rewrite En. left; auto. }
  rewrite D. unfold run_turn at 1. cbn [new_end_nodes b_result g_nodes empty_graph filter].
  assert (E0 : pick [] = []) by (apply Permutation_nil, Permutation_sym, Pk). unfold new_end_nodes. cbn [b_result g_nodes empty_graph filter]. rewrite E0.
  set (s0 := mk_bstate (@empty_graph point unit) []). destruct (pick (candidate_nodes g s0)) as [|node rest] eqn:Ec.
  - exfalso. assert (X : candidate_nodes g s0 = []) by (apply Permutation_nil; rewrite <- Ec; apply Pk). destruct (g_nodes g) as [|z l] eqn:En; [congruence|].
    assert (Y : In z (candidate_nodes g s0)); [|rewrite X in Y; destruct Y]. unfold candidate_nodes. apply filter_In. split; [rewrite En; left; auto|]. apply negb_true_iff, mem_false. intros I. apply in_flat_map in I as (e & _ & I). destruct I.
  - assert (Ig : In node (g_nodes g)). { assert (I : In node (candidate_nodes g s0)) by (apply (Permutation_in _ (Pk _)); rewrite Ec; left; auto). unfold candidate_nodes in I. apply filter_In in I. tauto. }
    unfold find_loop. rewrite (Nat.add_comm (2 * length (g_nodes g)) 2). cbn [Nat.add follow]. unfold get_next_pos. specialize (Nb node Ig).
    assert (En : forall q, In q (neighbors g node) -> has_edge g node q) by (intros q Iq; apply in_neighbors; auto). destruct (neighbors g node) as [|q0 l0]; [congruence|]. set (l := q0 :: l0) in *.
    destruct (deltas_ok cs g B Wf Ps node l En) as (vs & -> & F). cbn [bind]. pose proof (fun q u => directions_in cs node l vs q u F) as Di.
    destruct (directions l vs) as [|[q u] ds]; [reflexivity|]. exfalso. destruct (Di q u (or_introl eq_refl)) as (Iq & Nq). apply Nq. apply dist_sq_0, Z, En. auto. Qed.
Print Assumptions C47_images_refuted.
(** A single position: ValueError (in more than one dimension). *)
Theorem C47_single_refuted : forall pick cs fs x, any_order pick -> (length x <> 1)%nat -> evaluate_line_ballistic pick cs fs (mk_graph [x] []) = Err ValueError.
Proof. intros pick cs fs x Pk L. unfold evaluate_line_ballistic, evaluate_line_ballistic_with. cbn. assert (E : forall l : list point, l = [] -> pick l = []) by (intros l ->; apply Permutation_nil, Permutation_sym, Pk).
  unfold run_turn, new_end_nodes, candidate_nodes. cbn. rewrite (E [] eq_refl). assert (E1 : pick [x] = [x]) by (apply Permutation_length_1_inv, Permutation_sym, Pk). rewrite E1.
  unfold find_loop. cbn. unfold get_next_pos. cbn [neighbors g_edges flat_map]. destruct (Nat.eqb_spec (length x) 1); [congruence|reflexivity]. Qed.
Print Assumptions C47_single_refuted.

(** hypotheses met: the cluster of two points across the boundary (C41_hypotheses_met) *)
Theorem C47_hypotheses_met : exists c r, In c (create_clusters (fun l => rev l) (fun l => l) c41_cs (c41_q 1 5) c41_ps) /\
  In [c41_q 1 20] (g_nodes c) /\ In [c41_q 19 20] (g_nodes c) /\ distance c41_cs [c41_q 1 20] [c41_q 19 20] <> 0%R /\
  evaluate_line_ballistic (fun l => l) c41_cs (Qc2R (c41_q 1 5)) c = Ok r /\ dominates c (g_nodes r).
Proof. destruct C41_hypotheses_met as (O & EO & B & P & E).
  destruct (create_clusters (fun l => rev l) (fun l => l) c41_cs (c41_q 1 5) c41_ps) as [|c cl] eqn:Ec; [discriminate|]. cbn [map] in E. injection E as E _.
  assert (Ic : In c (create_clusters (fun l => rev l) (fun l => l) c41_cs (c41_q 1 5) c41_ps)) by (rewrite Ec; left; reflexivity).
  assert (I1 : In [c41_q 1 20] (g_nodes c)) by (rewrite E; exact (or_introl eq_refl)). assert (I2 : In [c41_q 19 20] (g_nodes c)) by (rewrite E; exact (or_intror (or_introl eq_refl))).
  assert (D : distance c41_cs [c41_q 1 20] [c41_q 19 20] <> 0%R) by (rewrite <- dist_sq_0; vm_compute; discriminate).
  destruct (C47_cluster _ _ (fun l => l) _ _ _ c _ _ O EO (fun l => Permutation_refl l) B P Ic I1 I2 D) as (r & Er & _ & _ & Dom & _). exists c, r. split; [left; reflexivity|]. split; [exact I1|]. split; [exact I2|]. split; [exact D|]. split; [exact Er|exact Dom]. Qed.
Print Assumptions C47_hypotheses_met.

(** such a cluster: the positions 0 and 1 in the periodic unit interval *)
Theorem C47_images_example : exists c, create_clusters (fun l => l) (fun l => l) c41_cs (c41_q 1 5) [[c41_q 0 1]; [c41_q 1 1]] = [c] /\
  evaluate_line_ballistic (fun l => l) c41_cs (Qc2R (c41_q 1 5)) c = Err AssertionError.
Proof. eexists. split; [vm_compute; reflexivity|]. apply C47_images_refuted.
  - intros l. apply Permutation_refl.
  - repeat constructor.
  - constructor; cbn; [repeat constructor; cbn; intuition discriminate| |repeat constructor]. intros u v w [E|[]]. injection E as <- <- _. auto.
  - repeat constructor.
  - discriminate.
  - intros x [<-|[<-|[]]]; discriminate.
  - intros x y (w & [[E|[]]|[E|[]]]); injection E as <- <- _; apply dist_sq_0; vm_compute; reflexivity. Qed.
Print Assumptions C47_images_example.
