(** C57: searching and identifying. *)
From Coq Require Import String.
From Verif Require Import Base BaseFacts CoordSys SpecGeom CoordSysFacts GeomCombined CellList Values Container SpecContainer ContainerFacts ContainerHist PropContainer
  Queue QueueFacts SpecQueue Mesh SpecMesh Hdf5 NelderMead SpecMin Controller SpecSearch SpecRun ControllerFacts ControllerSteps SearchFacts SearchProps SearchGenuine SearchExample PropSearch Config SpecConfig PropConfig
  CoordSysR Graph SpecGraph Paths SpecPath Cluster SpecCluster Dimension SpecDim Shape Identify SpecIdentify IdentifyFacts PropIdentify.
Open Scope list_scope.
Open Scope Qc_scope.

(** A search with valid arguments for a deterministic potential [f], from the construction
    of the controller to its return, followed by identify.run on the result with the default
    feature size: whatever the schedule, the failures to save, the random choices of the
    libraries, the identification succeeds and is done with the feature size given to the
    search; every position in it is one where [f] does not exceed the threshold, lies in the
    box if the box is periodic, and is near a refined position if there is refinement; and
    every minimization with success and a value not above the threshold is in the result. *)
Theorem C57_search_then_identify : forall circle sphere order a load lf force g p s (f : point -> fval) raises file k env m,
  valid_args circle sphere a -> (load = false \/ (load = true /\ lf = Err IOError)) ->
  make_controller circle sphere order a None load true lf force = Ok (g, p, s) ->
  (forall y, f y <> NaN) -> (a_periodic a = true -> forall y z, lattice_eq (g_cs g) y z -> f y = f z) ->
  search g p (fun y v => v = f y) raises s file k -> k_phase k = Returned ->
  good_environment (g_cs g) env -> m = MBallistic \/ m = MShortestPath ->
  exists out, identify_run env (SContainer (st_result (k_state k))) None m = Ok out /\
    ic_cs out = g_cs g /\ ic_feature_size out = a_feature a /\
    accounts_for (g_cs g) (a_feature a) (map (fun r => normalize_position (g_cs g) (pos_of r)) (filter (is_node (g_gap g)) (map snd (recorded (k_log k))))) (ic_results out) /\
    (forall r, In r (ic_results out) -> has_shape (g_cs g) r (is_line_result (g_cs g) (a_feature a)) /\
       forall d, i_dimension r = Some d -> (d <= 3)%nat /\ (d <= length (a_limits a))%nat) /\
    forall r x, In r (ic_results out) -> In x (i_positions r) ->
      fle (f x) (Fin (a_gap a)) = true /\ (a_periodic a = true -> in_box (g_cs g) x) /\
      (a_stencil a <> StNone -> exists q, In q (cl_flat (c_refined (st_result (k_state k)))) /\ dist_lt (g_cs g) x q (a_feature a / qc 3) = true).
Proof. intros circle sphere order a load lf force g p s f raises file k env m V Ld E Nf Pf S Ph GE M.
  destruct (C56_valid_arguments circle sphere order a load lf force V Ld) as (g' & p' & s' & Q & E' & GC & GS & PS & _). rewrite E in E'. injection E' as <- <- <-.
  destruct (C56_configuration _ _ _ _ _ _ _ _ _ _ _ _ E) as (A0 & A1 & A2 & A3 & _ & _ & _ & _ & A4 & _).
  destruct (search_facts g p _ raises GC [] [] Q [] s file GS PS k S) as (R & _).
  destruct (reach_kinv g [] [] Q [] GC s file k GS R) as (I & _). pose proof (i_hist _ _ _ _ _ _ I) as H. cbn in H.
  assert (Fp : 0 < a_feature a) by apply V.
  assert (Cp : 0 < g_cutoff g). { rewrite <- A3 in Fp. replace (qc 3) with (1 + 1 + 1) in Fp by (apply Qc_is_canon; reflexivity). qnra. }
  assert (Dm : dim (g_cs g) = length (a_limits a)) by (unfold dim; rewrite A0; apply map_length).
  destruct (C51_run env (g_cs g) (g_gap g) (g_cutoff g) _ _ _ m None (a_feature a) GE (gc_box g GC) H M) as (out & Eo & B1 & B2 & B3 & B4); auto.
  exists out. split; [exact Eo|]. split; [exact B1|]. split; [exact B2|]. split; [exact B3|]. split; [rewrite <- Dm; exact B4|].
  intros r x Ir Ix. assert (Ip : In x (concat (map i_positions (ic_results out)))) by (apply in_concat; exists (i_positions r); split; auto; apply in_map; auto).
  apply B3 in Ip. apply in_map_iff in Ip as (r0 & <- & Ir0). apply filter_In in Ir0 as (Ir0 & Nr).
  destruct (C28_one_result_each g [] [] Q [] s file k GC GS R) as (N & _). cbn [app] in N.
  assert (In1 : In (stored (g_cs g) r0) (cl_flat (c_nodes (st_result (k_state k))))).
  { rewrite N. apply filter_In. split; [apply in_map; auto|]. rewrite is_node_stored. exact Nr. }
  assert (Px : pos_of (stored (g_cs g) r0) = normalize_position (g_cs g) (pos_of r0)) by (unfold stored; apply pos_of_set_pos).
  rewrite <- Px. split; [|split].
  - rewrite <- A2. apply (C37_value_at_node g p f raises [] Q [] s file k GC GS PS Nf); auto; rewrite ?A2; try discriminate. rewrite A1. auto.
  - intros Per. rewrite <- A1 in Per. destruct (C37_nodes_evaluated g p _ raises [] [] Q [] s file k GC GS PS S) with (r := stored (g_cs g) r0) as [[]|(_ & _ & y & _ & _ & X)]; auto.
    + intros y v ->. apply Nf.
    + rewrite A2. discriminate.
  - intros St. replace (a_feature a / qc 3) with (g_cutoff g). 2:{ rewrite <- A3. field. intros X. apply (f_equal this) in X. discriminate. }
    apply (C55_every_node_refined g [] [] Q [] s file k GC GS R Ph); auto.
    + intros X. rewrite X in A4. destruct (a_stencil a); [congruence| |]; (destruct A4 as (z & A4); try destruct A4 as (z' & A4); destruct A4; discriminate).
    + unfold nodes_of. apply filter_In. split; [apply in_map; auto|]. rewrite is_node_stored. auto. Qed.
Print Assumptions C57_search_then_identify.

(** hypotheses met: the search of C37_hypotheses_met, from its arguments to the
    identification of the one node found *)
Definition c57_args : search_args :=
  mk_args [(qc 0, qc 1)] true (MeshInt 1) StNone (q4 1) (qc 3 * q4 4) (mk_nm_kwargs (Some (q4 1)) (Some (Fin (q4 1))) (Some (Some 30%nat)) (Some (Some 60%nat)) (Some None) (Some false)) 1 true 0 0.
Lemma c57_make : exists s, make_controller [] [] (fun l => l) c57_args None false true (Err IOError) false = Ok (par_g, par_p, s) /\
  create_state (fun l => l) (g_cs par_g) (g_gap par_g) (g_cutoff par_g) None false true (Err IOError) [1%nat] false = Ok s.
Proof. unfold make_controller. 
  assert (C : coordinate_system (a_limits c57_args) (a_periodic c57_args) = g_cs par_g) by reflexivity.
  assert (D : dist_cutoff (a_feature c57_args) = g_cutoff par_g) by (apply Qc_is_canon; reflexivity).
  cbv zeta. rewrite C, D. cbn [check_dimensions a_limits c57_args a_mesh].
  destruct (check_inv _ _ _ _ par_ok) as (s & _ & _ & _ & _ & _ & _ & _ & B & _). exists s. split; [|exact B].
  change (Fin (a_gap c57_args)) with (g_gap par_g). cbn. cbn in B. rewrite B. cbn. reflexivity. Qed.
Theorem C57_hypotheses_met : exists g p s (f : point -> fval) k,
  valid_args [] [] c57_args /\ make_controller [] [] (fun l => l) c57_args None false true (Err IOError) false = Ok (g, p, s) /\
  (forall y, f y <> NaN) /\ (forall y z, lattice_eq (g_cs g) y z -> f y = f z) /\
  search g p (fun y v => v = f y) (fun _ _ => False) s None k /\ k_phase k = Returned /\ good_environment (g_cs g) plain_env /\
  exists out x, identify_run plain_env (SContainer (st_result (k_state k))) None MBallistic = Ok out /\ map i_positions (ic_results out) = [[x]].
Proof. destruct c57_make as (s & Mk & B). exists par_g, par_p, s, par_f.
  destruct (check_inv _ _ _ _ par_ok) as (s' & r & ow & w & k1 & k2 & k3 & k4 & B' & Em & S1 & S2 & S3 & S4 & H & Tx).
  rewrite B in B'. injection B' as <-. apply summary_inv in H as (H0 & _ & _ & _ & _ & H5 & _). exists k4.
  assert (V : valid_args [] [] c57_args).
  { constructor; cbn; [discriminate| |reflexivity|left; reflexivity|lia|exact I]. repeat constructor. discriminate. }
  assert (Nf : forall y, par_f y <> NaN) by discriminate.
  assert (Pf : forall y z, lattice_eq (g_cs par_g) y z -> par_f y = par_f z).
  { intros y z L. unfold par_f. rewrite (normalize_lattice_inv (cs1 true) y z); auto. apply cs1_wf. }
  assert (Se : search par_g par_p (fun y v => v = par_f y) (fun _ _ => False) s None k4).
  { assert (X : search par_g par_p (fun y v => v = par_f y) (fun _ _ => False) s None k1) by (eapply search_step; [constructor| |exact S1]; exact I).
    assert (X2 : search par_g par_p (fun y v => v = par_f y) (fun _ _ => False) s None k2).
    { eapply search_step; [exact X| |exact S2]. intros x Hn. assert (Ex : x = par_x). { destruct (k_tasks k1) as [|t ts]; [discriminate|]. cbn in Hn, Tx. injection Hn as ->. cbn in Tx. apply (f_equal (hd [])) in Tx. exact Tx. }
      subst x. exists NelderMeadExtra.stable_argsort, (fun _ y => Ok (par_f y)), None. split; [apply NelderMeadExtra.stable_argsort_ok|].
      split; [intros _ y v [= <-]; reflexivity|]. split; [intros ? ? ? X0; discriminate X0|]. split; [intros ? X0; discriminate X0|]. exists ow, w. exact Em. }
    assert (X3 : search par_g par_p (fun y v => v = par_f y) (fun _ _ => False) s None k3) by (eapply search_step; [exact X2| |exact S3]; exact I).
    eapply search_step; [exact X3| |exact S4]. exact I. }
  assert (Ph : k_phase k4 = Returned) by (apply phase_returned; exact H0).
  assert (GE : good_environment (g_cs par_g) plain_env) by apply C51_environments_exist.
  split; [exact V|]. split; [exact Mk|]. split; [exact Nf|]. split; [exact Pf|]. split; [exact Se|]. split; [exact Ph|]. split; [exact GE|].
  destruct (C57_search_then_identify [] [] (fun l => l) c57_args false (Err IOError) false par_g par_p s par_f (fun _ _ => False) None k4 plain_env MBallistic V (or_introl eq_refl) Mk Nf (fun _ => Pf) Se Ph GE (or_introl eq_refl))
    as (out & Eo & _ & _ & (Nd & Ac & Ne & _) & _).
  destruct (C56_valid_arguments [] [] (fun l => l) c57_args false (Err IOError) false V (or_introl eq_refl)) as (g' & p' & s' & Q & E' & GC & GS & PS & _). rewrite Mk in E'. injection E' as <- <- <-.
  destruct (search_facts par_g par_p _ (fun _ _ => False) GC [] [] Q [] s None GS PS k4 Se) as (R & _).
  destruct (C28_one_result_each par_g [] [] Q [] s None k4 GC GS R) as (N & _). cbn [app] in N. rewrite N in H5. clear - H5 Eo Nd Ac Ne.
  assert (L1 : length (filter (is_node (g_gap par_g)) (map snd (recorded (k_log k4)))) = 1%nat).
  { rewrite <- H5. clear. generalize (map snd (recorded (k_log k4))). intros l. induction l as [|r l IH]; cbn; auto. rewrite is_node_stored. destruct (is_node _ r); cbn; auto. }
  clear H5. destruct (filter (is_node (g_gap par_g)) (map snd (recorded (k_log k4)))) as [|r1 [|r2 l2]]; try discriminate L1. cbn [map In] in Ac. exists out, (normalize_position (g_cs par_g) (pos_of r1)). split; [exact Eo|].
  set (x := normalize_position _ _) in *. clearbody x. assert (Ac' : forall y, In y (concat (map i_positions (ic_results out))) <-> x = y) by (intros y; rewrite Ac; tauto).
  assert (Ne' : forall l, In l (map i_positions (ic_results out)) -> l <> []) by (intros l Il; apply in_map_iff in Il as (r0 & <- & Ir); auto).
  revert Nd Ac' Ne'. generalize (map i_positions (ic_results out)). clear. intros ll Nd Ac Ne.
  assert (Ec : concat ll = [x]). { destruct (concat ll) as [|y l]; [exfalso; destruct (proj2 (Ac x) eq_refl)|]. assert (x = y) by (apply Ac; left; auto). subst y. destruct l as [|z l]; auto. assert (x = z) by (apply Ac; right; left; auto). subst z. inversion Nd as [|? ? X]; subst. exfalso. apply X. left. auto. }
  destruct ll as [|l ll]; [discriminate|]. assert (Ll : l <> []) by (apply Ne; left; auto). destruct l as [|y l]; [congruence|]. cbn in Ec. injection Ec as -> Ec. apply app_eq_nil in Ec as (-> & Ec).
  destruct ll as [|l ll]; auto. exfalso. apply (Ne l); [right; left; auto|]. cbn in Ec. apply app_eq_nil in Ec. tauto. Qed.
Print Assumptions C57_hypotheses_met.
