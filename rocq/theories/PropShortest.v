(** C48: the shortest-path method. *)
From Verif Require Import Base BaseFacts CoordSys SpecGeom CoordSysFacts GeomCombined CoordSysR Graph SpecGraph GraphFacts Cluster SpecCluster ClusterFacts PropCluster Paths SpecPath PathFacts ShortestPath ShortestPathFacts.
From Coq Require Import Reals Psatz.
From Coq Require Import Lra.
Open Scope list_scope.

(** On every cluster, for every order of the sets and every choice among shortest
    paths, the method ends without exception (in particular the assertion holds); the
    line is a connected part of the cluster, consecutive points are not farther apart
    than the feature size, and every position of the cluster is on the line or adjacent
    to it. *)
Theorem C48_cluster : forall order eorder pick spath cs fs positions c, any_order order -> any_order eorder -> any_order pick -> good_spath spath ->
  wf_box cs -> (0 < fs)%Qc -> Forall (is_pos cs) positions -> In c (create_clusters order eorder cs fs positions) ->
  exists r, evaluate_line_shortest_path pick spath (Qc2R fs) c = Ok r /\ wf_graph r /\ part_of r c /\ connected r /\ dominates c (g_nodes r) /\
    forall u v, has_edge r u v -> (distance cs u v <= Qc2R fs)%R.
Proof. intros order eorder pick spath cs fs positions c Or EO Pk Sp B Fp P Ic. destruct (C43_edges order eorder cs fs positions c Or EO B P Ic) as (Wf & _ & Ed & At).
  pose proof (cluster_connected order eorder cs fs positions Or EO B P c Ic) as Cn.
  destruct (shortest_path_ok pick spath (Qc2R fs) c Pk Sp Wf Cn) as (r & E & (Wr & Pr & Cr) & D).
  - rewrite <- Qc2R_0. apply Qc2R_lt; auto.
  - intros [[u v] w] I. cbn [snd]. destruct (At u v) as (_ & _ & E); [exists w; auto|]. rewrite (attr_in c u v w Wf I) in E. injection E as ->. apply distance_nonneg.
  - apply (cluster_nonempty order eorder cs fs positions Or EO B P c Ic).
  - exists r. split; auto. split; auto. split; auto. split; auto. split; auto. intros u v H. apply Pr in H. destruct (wf_ends Wf H). apply Ed in H; tauto. Qed.
Print Assumptions C48_cluster.

(** The same on every connected graph with a node. *)
Theorem C48_graph : forall pick spath fs (g : graph point R), any_order pick -> good_spath spath -> wf_graph g -> connected g -> g_nodes g <> [] -> (0 < fs)%R ->
  (forall e, In e (g_edges g) -> (0 <= snd e)%R) ->
  exists r, evaluate_line_shortest_path pick spath fs g = Ok r /\ wf_graph r /\ part_of r g /\ connected r /\ dominates g (g_nodes r).
Proof. intros pick spath fs g Pk Sp Wf Cn Ne Fp Dp. destruct (shortest_path_ok pick spath fs g Pk Sp Wf Cn Fp Dp Ne) as (r & E & (Wr & Pr & Cr) & D). exists r. auto 8. Qed.
Print Assumptions C48_graph.

(** The assumption about [nx.shortest_path] can be met: there is such a function. *)
Theorem C48_shortest_paths_exist : exists spath : graph point R -> point -> point -> option (list point), good_spath spath.
Proof. exists some_spath. apply some_spath_good. Qed.
Print Assumptions C48_shortest_paths_exist.

(** the empty graph, which is never a cluster *)
Theorem C48_empty : forall pick spath fs, any_order pick -> evaluate_line_shortest_path pick spath fs empty_graph = Err KeyError.
Proof. intros pick spath fs Pk. unfold evaluate_line_shortest_path, evaluate_line_shortest_path_with. cbn. assert (E : pick [] = []) by (apply Permutation_nil, Permutation_sym, Pk). rewrite E. reflexivity. Qed.
Print Assumptions C48_empty.

(** hypotheses met: five points on a line; the ends are four steps apart *)
Definition c48_ps : list point := [[c41_q 0 1]; [c41_q 1 1]; [c41_q 2 1]; [c41_q 3 1]; [c41_q 4 1]].
Definition c48_cs : coordsys := mk_cs [(0%Qc, c41_q 10 1)] false.
Theorem C48_hypotheses_met : exists c r, In c (create_clusters (fun l => rev l) (fun l => l) c48_cs (c41_q 1 1) c48_ps) /\
  map (@fst (point * point) R) (g_edges c) = [([c41_q 4 1], [c41_q 3 1]); ([c41_q 3 1], [c41_q 2 1]); ([c41_q 2 1], [c41_q 1 1]); ([c41_q 1 1], [c41_q 0 1])] /\
  evaluate_line_shortest_path (fun l => l) some_spath (Qc2R (c41_q 1 1)) c = Ok r /\ dominates c (g_nodes r).
Proof. assert (O1 : any_order (fun l : list point => rev l)) by (intros l; apply Permutation_sym, Permutation_rev).
  assert (O2 : any_order (fun l : list (point * point * R) => l)) by (intros l; apply Permutation_refl).
  assert (O3 : any_order (fun l : list point => l)) by (intros l; apply Permutation_refl).
  assert (B : wf_box c48_cs) by (repeat constructor). assert (P : Forall (is_pos c48_cs) c48_ps) by (repeat constructor).
  assert (Fp : (0 < c41_q 1 1)%Qc) by reflexivity.
  pose proof (fun c => C48_cluster _ _ _ _ _ _ _ c O1 O2 O3 some_spath_good B Fp P) as T.
  assert (Ed : map (fun c => map (@fst (point * point) R) (g_edges c)) (create_clusters (fun l => rev l) (fun l => l) c48_cs (c41_q 1 1) c48_ps) =
    [[([c41_q 4 1], [c41_q 3 1]); ([c41_q 3 1], [c41_q 2 1]); ([c41_q 2 1], [c41_q 1 1]); ([c41_q 1 1], [c41_q 0 1])]]) by (vm_compute; reflexivity).
  destruct (create_clusters (fun l => rev l) (fun l => l) c48_cs (c41_q 1 1) c48_ps) as [|c cl]; [discriminate|]. cbn [map] in Ed. injection Ed as Ed _.
  destruct (T c (or_introl eq_refl)) as (r & E & _ & _ & _ & D & _). exists c, r. split; [left; reflexivity|]. split; [exact Ed|]. split; [exact E|exact D]. Qed.
Print Assumptions C48_hypotheses_met.
