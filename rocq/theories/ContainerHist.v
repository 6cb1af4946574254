(** History-level forms used by PropContainer.v. *)
From Verif Require Import Base BaseFacts CoordSys SpecGeom CoordSysFacts CellList CellListFacts Values Container
  CellGeomFacts SpecContainer ContainerFacts ContainerQueries.
Open Scope Qc_scope.
Set Implicit Arguments.

Section H.
  Variables (cs : coordsys) (gap : fval) (cutoff : Qc) (rs : list result) (ps : list point) (c : container).
  Hypothesis Hw : wf_box cs.
  Hypothesis Hh : history cs gap cutoff rs ps c.

  Lemma hist_stored_pos r : In r rs -> is_pos cs (pos_of r).
  Proof. intros Hr. clear Hw. induction Hh as [rs ps c E Hrs Hps|rs ps c r' c' b H IH Hp E|rs ps c p c' H IH Hp E|rs ps c b H IH]; auto.
    - rewrite Forall_forall in Hrs. auto.
    - apply in_app_iff in Hr as [|[<-|[]]]; auto. Qed.

  Lemma hist_nodes_complete p r : lookup_complete cs cutoff -> is_pos cs p -> In r rs -> is_node gap r = true ->
    pos_of (stored cs r) <> p -> dist_lt cs p (pos_of r) cutoff = true ->
    exists ds, neighbour_distances_sq c p = Ok ds /\ In (dist_sq cs p (pos_of r)) ds.
  Proof. intros Hc Hp Hr Hn Hne Hd.
    destruct (history_represents Hw Hh) as (G & C & P & D & N & _ & _).
    rewrite <- C in Hp. destruct (neighbours_spec G Hp) as (ns & E & _ & Hcomp & _). rewrite C, D in *.
    unfold neighbour_distances_sq. rewrite E. cbn [bind]. rewrite C. eexists. split; [reflexivity|].
    assert (Q : dist_sq cs p (pos_of (stored cs r)) = dist_sq cs p (pos_of r)).
    { unfold stored. rewrite pos_of_set_pos. pose proof (hist_stored_pos _ Hr).
      destruct (periodic cs) eqn:Per.
      - symmetry. apply dist_sq_lattice_r; auto. apply normalize_shifted; auto.
      - rewrite normalize_nonper; auto. }
    apply in_map_iff. exists (stored cs r). split; auto. apply Hcomp; auto.
    - rewrite N. apply filter_In. split; [apply in_map; auto|]. rewrite is_node_stored. auto.
    - unfold dist_lt in *. rewrite Q. auto. Qed.

  Lemma hist_refined_complete p q : lookup_complete cs cutoff -> is_pos cs p -> In q ps ->
    dist_lt cs p q cutoff = true ->
    exists ds, refined_distances_sq c p = Ok ds /\ In (dist_sq cs p q) ds.
  Proof. intros Hc Hp Hq Hd.
    destruct (history_represents Hw Hh) as (G & C & P & D & _ & _ & F).
    rewrite <- C in Hp. destruct (refined_spec G Hp) as (ns & E & _ & Hcomp & _). rewrite C, D, F in *.
    unfold refined_distances_sq. rewrite C, E. cbn [bind]. eexists. split; [reflexivity|].
    apply in_map_iff. exists q. split; auto. Qed.

  Lemma hist_only_stored p : is_pos cs p -> exists ns, get_neighbours c p = Ok ns /\
    (forall r, In r ns -> In r (filter (is_node gap) (map (stored cs) rs)) /\ pos_of r <> p) /\
    (lookup_unique cs cutoff -> exists rest, Permutation (ns ++ rest) (filter (is_node gap) (map (stored cs) rs))).
  Proof. intros Hp. destruct (history_represents Hw Hh) as (G & C & P & D & N & _ & _).
    rewrite <- C in Hp. destruct (neighbours_spec G Hp) as (ns & E & Hin & _ & Hu). rewrite C, D, N in *.
    exists ns. auto. Qed.

  Lemma hist_only_stored_refined p : is_pos cs p ->
    exists ns, get_neighbour_values (c_refined c) (get_frac cs p) = Ok ns /\
    refined_distances_sq c p = Ok (map (dist_sq cs p) ns) /\
    (forall r, In r ns -> In r ps) /\
    (lookup_unique cs cutoff -> exists rest, Permutation (ns ++ rest) ps).
  Proof. intros Hp. destruct (history_represents Hw Hh) as (G & C & P & D & _ & _ & F).
    rewrite <- C in Hp. destruct (refined_spec G Hp) as (ns & E & Hin & _ & Hu). rewrite C, D, F in *.
    exists ns. unfold refined_distances_sq. rewrite C, E. cbn [bind]. auto. Qed.

  Lemma hist_no_error r p : is_pos cs (pos_of r) -> is_pos cs p ->
    (exists c' b, add_result c r = Ok (c', b)) /\ (exists c', set_refined c p = Ok c') /\
    (exists ds, neighbour_distances_sq c p = Ok ds) /\ (exists ds, refined_distances_sq c p = Ok ds).
  Proof. intros Hr Hp. destruct (history_represents Hw Hh) as (G & C & _). rewrite <- C in Hr, Hp.
    split; [|split; [|split]].
    - destruct (@add_result_ok c r G Hr) as (c' & E & _). eauto.
    - destruct (@set_refined_ok c p G Hp) as (c' & E & _). eauto.
    - unfold neighbour_distances_sq. destruct (neighbours_spec G Hp) as (ns & E & _). rewrite E. cbn. eauto.
    - unfold refined_distances_sq. destruct (refined_spec G Hp) as (ns & E & _). rewrite E. cbn. eauto. Qed.

  Lemma hist_classification : cl_flat (c_nodes c) = filter (is_node gap) (map (stored cs) rs) /\
    c_rejected c = filter (fun r => negb (is_node gap r)) (map (stored cs) rs) /\
    cl_flat (c_refined c) = ps /\ c_cs c = cs /\ c_gap c = gap /\ c_cutoff c = cutoff.
  Proof. destruct (history_represents Hw Hh) as (G & C & P & D & N & R & F). auto 10. Qed.

  Lemma hist_add_result r : is_pos cs (pos_of r) ->
    exists c', add_result c r = Ok (c', is_node gap r) /\
      cl_flat (c_nodes c') = cl_flat (c_nodes c) ++ (if is_node gap r then [stored cs r] else []) /\
      c_rejected c' = c_rejected c ++ (if is_node gap r then [] else [stored cs r]) /\
      c_refined c' = c_refined c /\ c_cs c' = c_cs c /\ c_gap c' = c_gap c /\ c_cutoff c' = c_cutoff c.
  Proof. intros Hr. destruct (history_represents Hw Hh) as (G & C & P & D & N & R & F). rewrite <- C in Hr.
    destruct (@add_result_ok c r G Hr) as (c' & E1 & G1 & N1 & R1 & F1 & C1 & P1 & D1 & S1).
    rewrite P, C in *. exists c'. auto 10. Qed.

  Lemma hist_fake p : is_pos cs p -> lookup_complete cs cutoff ->
    forall width, width <= cutoff -> fake_potential c width p =
      Ok (if node_near cs width (filter (is_node gap) (map (stored cs) rs)) p then PInf else Fin 0).
  Proof. intros Hp Hc width Hwd. destruct (history_represents Hw Hh) as (G & C & P & D & N & R & F).
    rewrite (@fake_potential_spec c width p G); rewrite ?C, ?D, ?N; auto. Qed.

  Lemma hist_check_simplex k vs : Forall (is_pos cs) vs -> lookup_complete cs cutoff ->
    check_simplex c cutoff k vs =
    Ok (count (node_near cs cutoff (filter (is_node gap) (map (stored cs) rs))) vs <=? k)%nat.
  Proof. intros Hv Hc. destruct (history_represents Hw Hh) as (G & C & P & D & N & R & F).
    pose proof (@check_simplex_spec c k vs G) as S. rewrite C, D, N in S. auto. Qed.

  Lemma hist_check_pos k p : is_pos cs p -> lookup_complete cs cutoff ->
    exists b, check_pos_refinement c cutoff k p = Ok b /\
      (b = true -> (count (fun q => dist_lt cs p q cutoff) ps <= k)%nat) /\
      (lookup_unique cs cutoff -> b = (count (fun q => dist_lt cs p q cutoff) ps <=? k)%nat) /\
      (k = 0%nat -> b = negb (existsb (fun q => dist_lt cs p q cutoff) ps)).
  Proof. intros Hp Hc. destruct (history_represents Hw Hh) as (G & C & P & D & N & R & F).
    pose proof (@check_pos_spec c k p G) as S. unfold near_refined in S. rewrite C, D, F in S. auto. Qed.
End H.

(** counterexamples *)
Definition mk_node (p : point) (v : fval) : result :=
  Plain {| r_pos := p; r_value := v; r_success := true; r_status := 0; r_num_fev := 1; r_num_iter := 1;
           r_simplex_history := []; r_fun_history := None |}.

Definition cs1 (per : bool) : coordsys := mk_cs [(qc 0, qc 1)] per.
Lemma cs1_wf per : wf_box (cs1 per).
Proof. repeat constructor. Qed.

Lemma nonperiodic_miss : exists cs gap cutoff r c p, wf_box cs /\ periodic cs = false /\ is_pos cs p /\ history cs gap cutoff [r] [] c /\
  is_node gap r = true /\ pos_of (stored cs r) <> p /\ dist_lt cs p (pos_of r) cutoff = true /\
  neighbour_distances_sq c p = Ok [].
Proof.
  destruct (@container_new_ok (cs1 false) (Fin 0) (qc 3) [mk_node [qc 1] (Fin 0)] []) as (c & E & _).
  { apply cs1_wf. } { repeat constructor. } { constructor. }
  exists (cs1 false), (Fin 0), (qc 3), (mk_node [qc 1] (Fin 0)), c, [qc (-1)].
  split; [apply cs1_wf|]. split; [reflexivity|]. split; [reflexivity|].
  split; [apply hist_new; auto; repeat constructor|]. split; [reflexivity|].
  split; [vm_compute; intros H; discriminate H|]. split; [vm_compute; reflexivity|].
  vm_compute in E. injection E as <-. vm_compute. reflexivity. Qed.

Lemma duplicate_report : exists cs gap cutoff r c p, wf_box cs /\ is_pos cs p /\ history cs gap cutoff [r] [] c /\
  get_neighbours c p = Ok [r; r; r].
Proof.
  destruct (@container_new_ok (cs1 true) (Fin 0) (qc 3) [mk_node [qc 0] (Fin 0)] []) as (c & E & _).
  { apply cs1_wf. } { repeat constructor. } { constructor. }
  exists (cs1 true), (Fin 0), (qc 3), (mk_node [qc 0] (Fin 0)), c, [half].
  split; [apply cs1_wf|]. split; [reflexivity|].
  split; [apply hist_new; auto; repeat constructor|].
  vm_compute in E. injection E as <-. vm_compute. reflexivity. Qed.

Lemma overcount : exists cs gap cutoff c p q, wf_box cs /\ is_pos cs p /\ history cs gap cutoff [] [q] c /\
  (count (fun q => dist_lt cs p q cutoff) [q] <= 1)%nat /\ check_pos_refinement c cutoff 1 p = Ok false.
Proof.
  destruct (@container_new_ok (cs1 true) (Fin 0) (qc 3) [] [[qc 0]]) as (c & E & _).
  { apply cs1_wf. } { constructor. } { repeat constructor. }
  exists (cs1 true), (Fin 0), (qc 3), c, [half], [qc 0].
  split; [apply cs1_wf|]. split; [reflexivity|].
  split; [apply hist_new; auto; repeat constructor|]. split; [vm_compute; lia|].
  vm_compute in E. injection E as <-. vm_compute. reflexivity. Qed.

Lemma nan_is_node : exists cs gap cutoff c r, wf_box cs /\ history cs gap cutoff [r] [] c /\
  In r (cl_flat (c_nodes c)) /\ fle (value_of r) gap = false.
Proof.
  destruct (@container_new_ok (cs1 true) (Fin 0) (qc 3) [mk_node [qc 0] NaN] []) as (c & E & _).
  { apply cs1_wf. } { repeat constructor. } { constructor. }
  exists (cs1 true), (Fin 0), (qc 3), c, (mk_node [qc 0] NaN).
  split; [apply cs1_wf|].
  split; [apply hist_new; auto; repeat constructor|]. split; [|reflexivity].
  vm_compute in E. injection E as <-. vm_compute. left. reflexivity. Qed.

Lemma fake_zero_on_node : exists cs gap cutoff c r, wf_box cs /\ history cs gap cutoff [r] [] c /\
  is_node gap r = true /\ 0 < cutoff /\ fake_potential c cutoff (pos_of r) = Ok (Fin 0).
Proof.
  destruct (@container_new_ok (cs1 true) (Fin 0) (half) [mk_node [qc 0] (Fin 0)] []) as (c & E & _).
  { apply cs1_wf. } { repeat constructor. } { constructor. }
  exists (cs1 true), (Fin 0), half, c, (mk_node [qc 0] (Fin 0)).
  split; [apply cs1_wf|].
  split; [apply hist_new; auto; repeat constructor|]. split; [reflexivity|]. split; [reflexivity|].
  vm_compute in E. injection E as <-. vm_compute. reflexivity. Qed.

Lemma node_below_threshold gap r : is_node gap r = true -> value_of r <> NaN -> gap <> NaN -> fle (value_of r) gap = true.
Proof. unfold is_node, fgt. intros H Hv Hg. apply andb_true_iff in H as [_ H]. apply negb_true_iff in H.
  destruct (value_of r) as [| |x|], gap as [| |y|]; simpl in *; try congruence.
  apply leb_spec. apply ltb_false. auto. Qed.
