(** Property theorems C11: saved search results. *)
From Verif Require Import Base CoordSys SpecGeom CellList Values Container SpecContainer Queue Hdf5 SpecHdf5 Hdf5Facts ContainerFacts ContainerHist.
Open Scope Qc_scope.

(** *** C11: for a container reached by any history, loading what was saved
    (whatever order the file lists its members in) gives the same container,
    marked as unsaved.  Results must not carry a position of their own that
    differs from that of their last minimization. *)
Theorem C11_container_round_trip : forall cs gap cutoff rs ps c, wf_box cs -> history cs gap cutoff rs ps c ->
  Forall (own_position cs) rs -> Forall (child_pos cs) rs ->
  loads_as dec_container (enc_container c) (set_c_needs_saving c true).
Proof. exact loads_container. Qed.
Print Assumptions C11_container_round_trip.

(** hence the same lists and the same answers to every query *)
Theorem C11_same_answers : forall cs gap cutoff rs ps c, wf_box cs -> history cs gap cutoff rs ps c ->
  Forall (own_position cs) rs -> Forall (child_pos cs) rs ->
  forall t c', same_file (enc_container c) t -> dec_container t = Ok c' ->
    c_cs c' = c_cs c /\ c_gap c' = c_gap c /\ c_cutoff c' = c_cutoff c /\
    cl_flat (c_nodes c') = cl_flat (c_nodes c) /\ c_rejected c' = c_rejected c /\
    cl_flat (c_refined c') = cl_flat (c_refined c) /\
    (forall p, get_neighbours c' p = get_neighbours c p /\ neighbour_distances_sq c' p = neighbour_distances_sq c p /\
               refined_distances_sq c' p = refined_distances_sq c p).
Proof. intros cs gap cutoff rs ps c W H O CP t c' S E. pose proof (loads_container _ _ _ _ _ _ W H O CP t S) as E'.
  assert (c' = set_c_needs_saving c true) by congruence. subst c'. repeat split. Qed.
Print Assumptions C11_same_answers.

(** minimization results of both kinds; a wrapper loses a position set on it *)
Theorem C11_plain_result : forall r, loads_as dec_min (enc_min r) r.
Proof. exact loads_min. Qed.
Print Assumptions C11_plain_result.
Theorem C11_result : forall r, loads_as dec_result (enc_result r)
  match r with Plain m => Plain m | Joined c a _ => Joined c a None end.
Proof. exact loads_result. Qed.
Print Assumptions C11_result.

Theorem C11_coordinate_system : forall cs, wf_box cs -> loads_as dec_cs (enc_cs cs) cs.
Proof. exact loads_cs. Qed.
Print Assumptions C11_coordinate_system.

(** a whole search state: the queues are rebuilt from the objects they report *)
Theorem C11_state_round_trip : forall cs gap cutoff rs ps s order, wf_box cs -> history cs gap cutoff rs ps (st_result s) ->
  Forall (own_position cs) rs -> Forall (child_pos cs) rs ->
  loads_as dec_state (enc_state order s)
    {| st_result := set_c_needs_saving (st_result s) true;
       st_simplex := queue_new norm_simplex (objects order (st_simplex s));
       st_position := queue_new norm_pos (objects (fun l => l) (st_position s)) |}.
Proof. exact loads_state. Qed.
Print Assumptions C11_state_round_trip.

(** finding: a joined result with a position of its own (e.g. re-normalised in a
    box of different size) is restored at another place *)
Theorem C11_joined_position_lost_refuted : exists cs gap cutoff c c', wf_box cs /\ history cs gap cutoff [lost_result] [] c /\
  loads_as dec_container (enc_container c) c' /\
  map pos_of (cl_flat (c_nodes c)) = [[half]] /\ map pos_of (cl_flat (c_nodes c')) = [[qc 0]].
Proof. exact position_lost. Qed.
Print Assumptions C11_joined_position_lost_refuted.

(** the hypotheses are met by containers holding nodes, rejected results,
    joined results and refined positions *)
Theorem C11_hypotheses_met : exists cs gap cutoff rs ps c, wf_box cs /\ history cs gap cutoff rs ps c /\
  Forall (own_position cs) rs /\ Forall (child_pos cs) rs /\
  length (cl_flat (c_nodes c)) = 2%nat /\ length (c_rejected c) = 1%nat /\ length (cl_flat (c_refined c)) = 1%nat.
Proof.
  set (m := fun v => {| r_pos := [half]; r_value := v; r_success := true; r_status := 0; r_num_fev := 1; r_num_iter := 1;
            r_simplex_history := []; r_fun_history := None |}).
  set (rs := [Plain (m (Fin 0)); Joined (m (Fin 0)) (m PInf) None; Plain (m PInf)]).
  destruct (@container_new_ok (cs1 true) (Fin 0) half rs [[qc 0]] (cs1_wf true)) as (c & E & R & _); [repeat constructor..|].
  exists (cs1 true), (Fin 0), half, rs, [[qc 0]], c. split; [apply cs1_wf|]. split; [apply hist_new; auto; repeat constructor|].
  split; [repeat constructor|]. split; [repeat constructor|].
  destruct R as (_ & _ & _ & _ & C4 & C5 & C6). rewrite C4, C5, C6. repeat split. Qed.
Print Assumptions C11_hypotheses_met.
