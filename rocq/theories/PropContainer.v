(** Property theorems C07-C10, C25, C38: search result container.
    [history cs gap cutoff rs ps c] (SpecContainer.v) says that [c] is a
    container to which the results [rs] and refined positions [ps] were passed,
    in any interleaving and through constructor or methods. *)
From Verif Require Import Base CoordSys SpecGeom CellList Values Container SpecContainer ContainerFacts ContainerHist.
Open Scope Qc_scope.

(** *** C07 *)
Theorem C07_no_node_missed : forall cs gap cutoff rs ps c, wf_box cs -> history cs gap cutoff rs ps c ->
  forall p r, lookup_complete cs cutoff -> is_pos cs p -> In r rs -> is_node gap r = true ->
  pos_of (stored cs r) <> p -> dist_lt cs p (pos_of r) cutoff = true ->
  exists ds, neighbour_distances_sq c p = Ok ds /\ In (dist_sq cs p (pos_of r)) ds.
Proof. exact hist_nodes_complete. Qed.
Print Assumptions C07_no_node_missed.
Theorem C07_no_refined_missed : forall cs gap cutoff rs ps c, wf_box cs -> history cs gap cutoff rs ps c ->
  forall p q, lookup_complete cs cutoff -> is_pos cs p -> In q ps ->
  dist_lt cs p q cutoff = true ->
  exists ds, refined_distances_sq c p = Ok ds /\ In (dist_sq cs p q) ds.
Proof. exact hist_refined_complete. Qed.
Print Assumptions C07_no_refined_missed.
(** finding: without periodicity and with a cutoff above twice the box size a
    close node can be missed *)
Theorem C07_nonperiodic_large_cutoff_refuted :
  exists cs gap cutoff r c p, wf_box cs /\ periodic cs = false /\ is_pos cs p /\ history cs gap cutoff [r] [] c /\
  is_node gap r = true /\ pos_of (stored cs r) <> p /\ dist_lt cs p (pos_of r) cutoff = true /\
  neighbour_distances_sq c p = Ok [].
Proof. exact nonperiodic_miss. Qed.
Print Assumptions C07_nonperiodic_large_cutoff_refuted.

(** *** C08 *)
Theorem C08_only_stored_nodes : forall cs gap cutoff rs ps c, wf_box cs -> history cs gap cutoff rs ps c ->
  forall p, is_pos cs p -> exists ns, get_neighbours c p = Ok ns /\
    (forall r, In r ns -> In r (filter (is_node gap) (map (stored cs) rs)) /\ pos_of r <> p) /\
    (lookup_unique cs cutoff -> exists rest, Permutation (ns ++ rest) (filter (is_node gap) (map (stored cs) rs))).
Proof. exact hist_only_stored. Qed.
Print Assumptions C08_only_stored_nodes.
Theorem C08_only_stored_refined : forall cs gap cutoff rs ps c, wf_box cs -> history cs gap cutoff rs ps c ->
  forall p, is_pos cs p ->
    exists ns, get_neighbour_values (c_refined c) (get_frac cs p) = Ok ns /\
    refined_distances_sq c p = Ok (map (dist_sq cs p) ns) /\
    (forall r, In r ns -> In r ps) /\
    (lookup_unique cs cutoff -> exists rest, Permutation (ns ++ rest) ps).
Proof. exact hist_only_stored_refined. Qed.
Print Assumptions C08_only_stored_refined.
(** finding: with fewer than three cells a node is reported several times *)
Theorem C08_duplicate_report_refuted :
  exists cs gap cutoff r c p, wf_box cs /\ is_pos cs p /\ history cs gap cutoff [r] [] c /\
  get_neighbours c p = Ok [r; r; r].
Proof. exact duplicate_report. Qed.
Print Assumptions C08_duplicate_report_refuted.

(** *** C09 *)
Theorem C09_constructor_total : forall cs gap cutoff rs ps, wf_box cs ->
  Forall (fun r => is_pos cs (pos_of r)) rs -> Forall (is_pos cs) ps ->
  exists c, container_new cs gap cutoff rs ps = Ok c /\ represents cs gap cutoff rs ps c /\ c_needs_saving c = true.
Proof. exact container_new_ok. Qed.
Print Assumptions C09_constructor_total.
Theorem C09_no_index_error : forall cs gap cutoff rs ps c, wf_box cs -> history cs gap cutoff rs ps c ->
  forall r p, is_pos cs (pos_of r) -> is_pos cs p ->
    (exists c' b, add_result c r = Ok (c', b)) /\ (exists c', set_refined c p = Ok c') /\
    (exists ds, neighbour_distances_sq c p = Ok ds) /\ (exists ds, refined_distances_sq c p = Ok ds).
Proof. exact hist_no_error. Qed.
Print Assumptions C09_no_index_error.

(** *** C10 *)
Theorem C10_classification : forall cs gap cutoff rs ps c, wf_box cs -> history cs gap cutoff rs ps c ->
  cl_flat (c_nodes c) = filter (is_node gap) (map (stored cs) rs) /\
  c_rejected c = filter (fun r => negb (is_node gap r)) (map (stored cs) rs) /\
  cl_flat (c_refined c) = ps /\ c_cs c = cs /\ c_gap c = gap /\ c_cutoff c = cutoff.
Proof. exact hist_classification. Qed.
Print Assumptions C10_classification.
Theorem C10_add_result : forall cs gap cutoff rs ps c, wf_box cs -> history cs gap cutoff rs ps c ->
  forall r, is_pos cs (pos_of r) ->
    exists c', add_result c r = Ok (c', is_node gap r) /\
      cl_flat (c_nodes c') = cl_flat (c_nodes c) ++ (if is_node gap r then [stored cs r] else []) /\
      c_rejected c' = c_rejected c ++ (if is_node gap r then [] else [stored cs r]) /\
      c_refined c' = c_refined c /\ c_cs c' = c_cs c /\ c_gap c' = c_gap c /\ c_cutoff c' = c_cutoff c.
Proof. exact hist_add_result. Qed.
Print Assumptions C10_add_result.
Theorem C10_node_value : forall gap r, is_node gap r = true -> value_of r <> NaN -> gap <> NaN ->
  fle (value_of r) gap = true.
Proof. exact node_below_threshold. Qed.
Print Assumptions C10_node_value.
(** finding: a successful result with value NaN is a node *)
Theorem C10_nan_node_refuted :
  exists cs gap cutoff c r, wf_box cs /\ history cs gap cutoff [r] [] c /\
  In r (cl_flat (c_nodes c)) /\ fle (value_of r) gap = false.
Proof. exact nan_is_node. Qed.
Print Assumptions C10_nan_node_refuted.

(** *** C25 *)
Theorem C25_fake_potential : forall cs gap cutoff rs ps c, wf_box cs -> history cs gap cutoff rs ps c ->
  forall p, is_pos cs p -> lookup_complete cs cutoff ->
    forall width, width <= cutoff -> fake_potential c width p =
      Ok (if node_near cs width (filter (is_node gap) (map (stored cs) rs)) p then PInf else Fin 0).
Proof. exact hist_fake. Qed.
Print Assumptions C25_fake_potential.
(** finding: the potential vanishes exactly on top of an isolated node *)
Theorem C25_zero_on_node_refuted :
  exists cs gap cutoff c r, wf_box cs /\ history cs gap cutoff [r] [] c /\
  is_node gap r = true /\ 0 < cutoff /\ fake_potential c cutoff (pos_of r) = Ok (Fin 0).
Proof. exact fake_zero_on_node. Qed.
Print Assumptions C25_zero_on_node_refuted.

(** *** C38 *)
Theorem C38_simplex_rule : forall cs gap cutoff rs ps c, wf_box cs -> history cs gap cutoff rs ps c ->
  forall k vs, Forall (is_pos cs) vs -> lookup_complete cs cutoff ->
    check_simplex c cutoff k vs =
    Ok (count (node_near cs cutoff (filter (is_node gap) (map (stored cs) rs))) vs <=? k)%nat.
Proof. exact hist_check_simplex. Qed.
Print Assumptions C38_simplex_rule.
Theorem C38_position_rule : forall cs gap cutoff rs ps c, wf_box cs -> history cs gap cutoff rs ps c ->
  forall k p, is_pos cs p -> lookup_complete cs cutoff ->
    exists b, check_pos_refinement c cutoff k p = Ok b /\
      (b = true -> (count (fun q => dist_lt cs p q cutoff) ps <= k)%nat) /\
      (lookup_unique cs cutoff -> b = (count (fun q => dist_lt cs p q cutoff) ps <=? k)%nat) /\
      (k = 0%nat -> b = negb (existsb (fun q => dist_lt cs p q cutoff) ps)).
Proof. exact hist_check_pos. Qed.
Print Assumptions C38_position_rule.
(** finding: with few periodic cells a single refined position is counted
    several times *)
Theorem C38_overcount_refuted :
  exists cs gap cutoff c p q, wf_box cs /\ is_pos cs p /\ history cs gap cutoff [] [q] c /\
  (count (fun q => dist_lt cs p q cutoff) [q] <= 1)%nat /\ check_pos_refinement c cutoff 1 p = Ok false.
Proof. exact overcount. Qed.
Print Assumptions C38_overcount_refuted.

(** *** Non-vacuity: a periodic two-dimensional box with two nodes (one beyond
    the boundary), a rejected result and a refined position; the query on the
    other side of the boundary sees the node. *)
Definition ex_cs2 : coordsys := mk_cs [(qc 0, qc 4); (qc (-1), qc 3)] true.
Definition ex_rs : list result :=
  [mk_node [qc 5; qc 0] (Fin 0); mk_node [half; qc 0] (Fin (qc 7)); mk_node [qc 0; qc 0] (Fin half)].
Example ex_hist : exists c, history ex_cs2 (Fin 1) 1 ex_rs [[qc 2; qc 2]] c /\ wf_box ex_cs2 /\
  lookup_complete ex_cs2 1 /\ lookup_unique ex_cs2 1.
Proof.
  assert (W : wf_box ex_cs2) by (repeat constructor).
  destruct (@container_new_ok ex_cs2 (Fin 1) 1 ex_rs [[qc 2; qc 2]]) as (c & E & _); auto; [repeat constructor..|].
  exists c. split; [apply hist_new; auto; repeat constructor|]. split; auto. split; [left; reflexivity|].
  intros _. repeat constructor; vm_compute; discriminate. Qed.
Example ex_query : exists c, container_new ex_cs2 (Fin 1) 1 ex_rs [[qc 2; qc 2]] = Ok c /\
  length (cl_flat (c_nodes c)) = 2%nat /\ length (c_rejected c) = 1%nat /\
  neighbour_distances_sq c [qc (-1) + half; qc 0] = Ok [Q2Qc (1 # 4)] /\
  fake_potential c 1 [qc (-1) + half; qc 0] = Ok PInf /\
  check_simplex c 1 0 [[qc 4; half]; [qc 2; qc 2]] = Ok false /\
  check_simplex c 1 1 [[qc 4; half]; [qc 2; qc 2]] = Ok true.
Proof. eexists. split; [vm_compute; reflexivity|].
  split; [vm_compute; reflexivity|]. split; [vm_compute; reflexivity|].
  split; [vm_compute; reflexivity|].
  split; [vm_compute; reflexivity|]. split; vm_compute; reflexivity. Qed.
