(** The statements of PropSearch.v, proved. *)
From Coq Require Import String.
From Verif Require Import Base BaseFacts CoordSys SpecGeom CoordSysFacts CellList Values Container SpecContainer ContainerFacts ContainerHist
  Queue QueueFacts SpecQueue Hdf5 SpecHdf5 Controller SpecSearch ControllerFacts ControllerSteps SearchFacts Packing.
Open Scope list_scope.
Open Scope Qc_scope.

Section Props.
  Variables (g : config) (rs : list result) (ps : list point) (Q : list simplex) (P : list point).
  Variables (s : controller_state) (file : option tree) (k : ctrl).
  Hypothesis GC : good_config g.
  Hypothesis GS : good_start g s rs ps Q P.
  Hypothesis R : reaches g s file k.
  Let cs := g_cs g.
  Let log := k_log k.

  Let I : inv g rs ps Q P (mst k) := proj1 (reach_kinv g rs ps Q P GC s file k GS R).
  Let K : kinv g rs ps k := proj2 (reach_kinv g rs ps Q P GC s file k GS R).

  Lemma tasks_perm : Permutation (in_flight k) (q_running (st_simplex (k_state k))).
  Proof. exact (i_tasks _ _ _ _ _ _ I). Qed.

  Lemma parallel_limit : (running_now k <= List.length (in_flight k) <= g_parallel g)%nat.
  Proof. split.
    - unfold running_now, in_flight. rewrite map_length. clear. induction (k_tasks k) as [|[sx [| |e]] ts IH]; cbn; lia.
    - rewrite (Permutation_length tasks_perm). exact (i_par _ _ _ _ _ _ I). Qed.

  Lemma partition : Permutation (q_queued (st_simplex (k_state k)) ++ in_flight k ++ map fst (recorded log) ++ discarded log)
    (first_occurrences [] (Q ++ refinements g log)).
  Proof. pose proof (i_q _ _ _ _ _ _ I) as [O A Rn]. cbn [mst fst snd] in *. fold log in O, Rn. rewrite <- O.
    rewrite tasks_perm. rewrite <- ended_perm. rewrite Permutation_app_comm. apply Permutation_app_tail. exact Rn. Qed.
  Lemma scheduled_set x : In x (Q ++ refinements g log) <->
    In x (q_queued (st_simplex (k_state k))) \/ In x (in_flight k) \/ In x (map fst (recorded log)) \/ In x (discarded log).
  Proof. split.
    - intros H. assert (X : In x (first_occurrences [] (Q ++ refinements g log))) by (apply first_occ_in; auto).
      apply (Permutation_in _ (Permutation_sym partition)) in X. rewrite !in_app_iff in X. tauto.
    - intros H. apply (proj1 (first_occ_in [] _ x)). apply (Permutation_in _ partition). rewrite !in_app_iff. tauto. Qed.
  Lemma popped_nodup : NoDup (popped log).
  Proof. pose proof (i_q _ _ _ _ _ _ I) as [O A Rn]. cbn [mst fst snd] in *. pose proof (first_occ_nodup [] (Q ++ refinements g log)) as N. fold log in O. rewrite <- O in N.
    apply nodup_app_l in N. auto. Qed.
  Lemma started_nodup : NoDup (started log).
  Proof. pose proof popped_nodup as N. apply (Permutation_NoDup (popped_perm log)) in N. apply nodup_app_l in N. auto. Qed.
  Lemma started_scheduled x : In x (started log) -> In x (Q ++ refinements g log).
  Proof. intros H. apply (proj1 (first_occ_in [] _ x)). pose proof (qi_order (i_q _ _ _ _ _ _ I)) as O. cbn [mst fst snd] in O. fold log in O. rewrite <- O.
    apply in_app_iff. left. apply (Permutation_in _ (Permutation_sym (popped_perm log))). apply in_app_iff. auto. Qed.
  Lemma recorded_nodup : NoDup (map fst (recorded log)).
  Proof. pose proof (q_inv_running_nodup (i_q _ _ _ _ _ _ I)) as N. cbn [mst fst snd] in N. fold log in N.
    assert (N2 : NoDup (ended log)). { clear -N. induction (q_running (st_simplex (k_state k))); cbn in N; auto. inversion N; auto. }
    apply (Permutation_NoDup (ended_perm log)) in N2. apply nodup_app_l in N2. auto. Qed.
  Lemma started_split : Permutation (started log) (in_flight k ++ map fst (recorded log)).
  Proof. pose proof (qi_run (i_q _ _ _ _ _ _ I)) as Rn. cbn [mst fst snd] in Rn. fold log in Rn. rewrite popped_perm, ended_perm in Rn.
    rewrite tasks_perm. apply (Permutation_app_inv_r (discarded log)). rewrite <- Rn, <- app_assoc. reflexivity. Qed.

  Lemma decisions l1 a l2 : log = l1 ++ a :: l2 -> decided g rs ps l1 a.
  Proof. destruct K as (L & _). apply L. Qed.
  Lemma in_log {A} (f : action -> list A) x : In x (flat_map f log) -> exists l1 a l2, log = l1 ++ a :: l2 /\ In x (f a).
  Proof. intros H. apply in_flat_map in H as (a & Ha & Hx). apply in_split in Ha as (l1 & l2 & E). eauto. Qed.
  Lemma recorded_prefix l1 a l2 : log = l1 ++ a :: l2 -> incl (nodes_at g rs l1) (nodes_at g rs log).
  Proof. intros -> x H. unfold nodes_at in *. proj. rewrite map_app, app_assoc, nodes_of_app. apply in_app_iff. auto. Qed.
  Lemma discarded_near x : In x (discarded log) -> (g_simplex_cutoff g < count (node_near cs (g_cutoff g) (nodes_of g (rs ++ map snd (recorded log)))) x)%nat.
  Proof. intros H. apply in_log in H as (l1 & a & l2 & E & H). destruct a; cbn in H; try contradiction. destruct H as [-> |[]].
    pose proof (decisions _ _ _ E) as D. cbn in D. eapply Nat.lt_le_trans; [exact D|]. apply count_mono. intros p. apply node_near_mono. eapply recorded_prefix; eauto. Qed.

  Lemma results : cl_flat (c_nodes (st_result (k_state k))) = nodes_of g (rs ++ map snd (recorded log)) /\
    c_rejected (st_result (k_state k)) = filter (fun r => negb (is_node (g_gap g) r)) (map (stored cs) (rs ++ map snd (recorded log))) /\
    cl_flat (c_refined (st_result (k_state k))) = ps ++ refined log.
  Proof. destruct (hist_classification (gc_box g GC) (i_hist _ _ _ _ _ _ I)) as (A & B & C & _). auto. Qed.
  Lemma recorded_started x r : In (x, r) (recorded log) -> In x (started log).
  Proof. intros H. apply in_log in H as (l1 & a & l2 & E & H). destruct a; cbn in H; try contradiction. destruct H as [[= -> ->] |[]].
    pose proof (decisions _ _ _ E) as [D _]. rewrite E. unfold started. rewrite flat_map_app. apply in_app_iff. auto. Qed.

  Lemma position_set p : In p (P ++ to_refine log) <-> In p (q_queued (st_position (k_state k))) \/ In p (refined log) \/ In p (skipped log).
  Proof. etransitivity; [symmetry; apply (i_pall _ _ _ _ _ _ I)|]. apply (i_pdone _ _ _ _ _ _ I). Qed.

  Lemma complete : k_phase k = Returned \/ k_phase k = Draining ->
    q_queued (st_simplex (k_state k)) = [] /\ q_running (st_simplex (k_state k)) = [] /\ q_queued (st_position (k_state k)) = [] /\ k_tasks k = [].
  Proof. intros H. destruct K as (_ & _ & KP). assert (X : k_tasks k = [] /\ loop_condition (k_state k) = false) by (destruct H as [H|H]; rewrite H in KP; auto).
    destruct X as [X1 X2]. destruct (loop_condition_open _ _ _ _ _ _ I X2) as (A & B & C & _). auto. Qed.

  Lemma refined_nodes : g_stencil g <> None -> (k_phase k = Returned \/ k_phase k = Draining) -> 0 < g_cutoff g ->
    forall x r, In (x, r) (recorded log) -> is_node (g_gap g) r = true ->
    exists q, In q (ps ++ refined log) /\ dist_lt cs (normalize_position cs (pos_of r)) q (g_cutoff g) = true.
  Proof. intros St H C x r Hr Hn. destruct K as (_ & KN & _). destruct (KN St x r Hr Hn) as [X|(q & X & Y)].
    2: { exists q. auto. }
    destruct (complete H) as (_ & _ & Qp & _).
    assert (H2 : In (normalize_position cs (pos_of r)) (P ++ to_refine log)) by (apply in_app_iff; right; exact X).
    apply position_set in H2. rewrite Qp in H2. destruct H2 as [[]|[H2|H2]].
    - exists (normalize_position cs (pos_of r)). split; [apply in_app_iff; auto|]. unfold dist_lt. apply andb_true_iff. split; apply ltb_spec; auto.
      assert (Hp : is_pos cs (normalize_position cs (pos_of r))).
      { apply in_log in H2 as (l1 & a & l2 & E & Ha). destruct a; cbn in Ha; try contradiction. destruct Ha as [<- |[]]. apply (decisions _ _ _ E). }
      replace (dist_sq cs (normalize_position cs (pos_of r)) (normalize_position cs (pos_of r))) with 0.
      + qcq. nra.
      + symmetry. destruct (periodic cs) eqn:Per.
        * apply dist_sq_zero; auto; [apply GC|]. apply lattice_eq_refl. auto.
        * rewrite dist_sq_nonper by auto. apply euclid_sq_zero; auto.
    - apply in_log in H2 as (l1 & a & l2 & E & Ha). destruct a; cbn in Ha; try contradiction. destruct Ha as [<- |[]].
      destruct (decisions _ _ _ E) as (_ & (q & Hq & D) & _). exists q. split; auto. unfold refined_at in Hq. rewrite E. unfold refined. rewrite flat_map_app. rewrite !in_app_iff in *. tauto. Qed.

  (** separation *)
  Lemma refined_separated : g_recheck g = true -> g_count_cutoff g = 0%nat -> separated cs (g_cutoff g) (refined log) /\
    forall p q, In p (refined log) -> In q ps -> dist_lt cs p q (g_cutoff g) = false.
  Proof. intros Rc Cc.
    assert (D : forall l1 p l2, log = l1 ++ ARefine p :: l2 -> forall q, In q (ps ++ refined l1) -> dist_lt cs p q (g_cutoff g) = false).
    { intros l1 p l2 E q Hq. destruct (decisions _ _ _ E) as [_ D]. specialize (D Rc). rewrite Cc in D. unfold count, refined_at in D.
      destruct (dist_lt cs p q (g_cutoff g)) eqn:X; auto. exfalso.
      assert (F : In q (filter (fun q => dist_lt (g_cs g) p q (g_cutoff g)) (ps ++ refined l1))) by (apply filter_In; auto).
      destruct (filter _ _); [destruct F|cbn in D; lia]. }
    split.
    - revert D. generalize log as l. clear. intros l.
      induction l as [|a l IH] using rev_ind; intros D i j p q O Hi Hj; [destruct j; discriminate|].
      assert (IH' := IH (fun l1 p l2 E => D l1 p (l2 ++ [a]) ltac:(rewrite E, <- app_assoc; reflexivity))).
      unfold refined in *. rewrite flat_map_app in *. cbn [flat_map] in *. rewrite app_nil_r in *.
      set (m := flat_map _ l) in *. destruct (Nat.lt_ge_cases j (List.length m)) as [Lj|Lj].
      + rewrite nth_error_app1 in Hi, Hj by lia. exact (IH' i j p q O Hi Hj).
      + rewrite nth_error_app2 in Hj by auto. destruct a as [| | |p0| |]; try (destruct (j - List.length m)%nat; discriminate).
        destruct (j - List.length m)%nat as [|[|?]] eqn:Ej; try discriminate. injection Hj as <-.
        assert (Hi' : nth_error m i = Some p) by (rewrite nth_error_app1 in Hi by lia; auto).
        apply (D l p0 [] eq_refl). apply in_app_iff. right. eapply nth_error_In; eauto.
    - intros p q Hp Hq. apply in_log in Hp as (l1 & a & l2 & E & Ha). destruct a; cbn in Ha; try contradiction. destruct Ha as [<- |[]].
      apply (D _ _ _ E). apply in_app_iff. auto. Qed.

  Lemma refined_pos : Forall (is_pos cs) (refined log).
  Proof. apply Forall_forall. intros p Hp. apply in_log in Hp as (l1 & a & l2 & E & Ha). destruct a; cbn in Ha; try contradiction. destruct Ha as [<- |[]]. apply (decisions _ _ _ E). Qed.
  Lemma refinements_length : List.length (refinements g log) = (List.length (refined log) * stencil_size g)%nat.
  Proof. unfold refinements, stencil_size. destruct (g_stencil g) as [st|]; [|cbn; lia]. induction (refined log) as [|p l IH]; cbn; auto. rewrite app_length, !map_length, IH. reflexivity. Qed.
  Lemma started_bound : (List.length (started log) + List.length (discarded log) <= List.length Q + List.length (refined log) * stencil_size g)%nat.
  Proof. rewrite <- refinements_length, <- app_length, <- app_length. rewrite <- (Permutation_length (popped_perm log)).
    apply NoDup_incl_length; [apply popped_nodup|]. intros x Hx. pose proof (qi_order (i_q _ _ _ _ _ _ I)) as O. cbn [mst fst snd] in O. fold log in O.
    apply (proj1 (first_occ_in [] _ x)). rewrite <- O. apply in_app_iff. auto. Qed.
  Lemma bounded : periodic cs = true -> 0 < g_cutoff g -> g_recheck g = true -> g_count_cutoff g = 0%nat ->
    (List.length (refined log) <= packing_bound cs (g_cutoff g) /\
     List.length (started log) <= List.length Q + packing_bound cs (g_cutoff g) * stencil_size g)%nat.
  Proof. intros Per C Rc Cc. destruct (refined_separated Rc Cc) as [S _].
    pose proof (packing cs (g_cutoff g) Per (gc_box g GC) C (refined log) refined_pos S) as B. split; auto.
    pose proof started_bound as SB. pose proof (Nat.mul_le_mono_r _ _ (stencil_size g) B). lia. Qed.

  (** progress *)
  Lemma progress pick k' : (1 <= g_parallel g)%nat -> exceptions (k_tasks k) = [] -> step g k (ETurn pick) = Some k' ->
    exceptions (k_tasks k') = [] /\
    (k_phase k' = Running \/ k_phase k' = Draining) /\
    (running_now k' = 0%nat -> k_phase k' = Draining \/ (forall pick', exists k'', step g k' (ETurn pick') = Some k'' /\ k_phase k'' = Draining)).
  Proof. intros Par E S. cbn [step] in S. destruct (k_phase k) eqn:Ph; try discriminate. injection S as <-.
    destruct (turn_ok _ _ _ _ _ GC k pick I) as (F & H). rewrite E in H. destruct H as (M & E' & H).
    split; auto. pose proof (micros_inv _ _ _ _ _ GC _ _ I M) as I'.
    destruct (loop_condition (k_state k)); [|destruct H as [H _]; auto].
    destruct H as [H1 H2]. split; auto. intros Z. right. intros pick'. cbn [step]. rewrite H1. eexists. split; [reflexivity|].
    destruct (turn_ok _ _ _ _ _ GC _ pick' I') as (_ & H). rewrite E' in H. destruct H as (_ & _ & H).
    assert (OP : open_simplices (k_tasks (turn g k pick)) = []).
    { unfold running_now in Z. unfold open_simplices. clear -Z E'. revert Z E'. generalize (k_tasks (turn g k pick)) as ts. unfold exceptions.
      induction ts as [|[sx [| |e]] ts IH]; cbn; auto; discriminate. }
    pose proof (i_tasks _ _ _ _ _ _ I') as PT. cbn [mst fst snd] in PT. rewrite OP in PT. apply Permutation_nil in PT.
    assert (LC : loop_condition (k_state (turn g k pick)) = false).
    { destruct H2 as [H2|[A B]]; [unfold num_running in H2; rewrite PT in H2; cbn in H2; lia|].
      unfold loop_condition, finished, objects, has_queued. rewrite PT, A, B. reflexivity. }
    rewrite LC in H. apply H. Qed.

  Lemma gather_immediate pick : k_phase k = Draining -> exists k', step g k (EGather pick) = Some k' /\ k_phase k' = Returned /\ k_state k' = k_state k.
  Proof. intros Ph. destruct (complete (or_intror Ph)) as (_ & _ & _ & T). cbn [step]. rewrite Ph, T. cbn. eexists. split; [reflexivity|]. auto. Qed.

  Lemma failure_surfaces pick : k_phase k = Running -> exceptions (k_tasks k) <> [] ->
    exists k' e, step g k (ETurn pick) = Some k' /\ k_phase k' = Raised e /\ In e (exceptions (k_tasks k)) /\ k_state k' = k_state k.
  Proof. intros Ph E. cbn [step]. rewrite Ph. destruct (turn_ok _ _ _ _ _ GC k pick I) as (_ & H). destruct (exceptions (k_tasks k)); [congruence|].
    destruct H as (e0 & A & B & C). exists (turn g k pick), e0. split; auto. split; auto. split; auto. exact (f_equal (fun x : mstate => fst (fst x)) C). Qed.
  Lemma raised_exception e : k_phase k = Raised e -> In e (exceptions (k_tasks k)).
  Proof. intros Ph. destruct K as (_ & _ & KP). rewrite Ph in KP. auto. Qed.
  Lemma in_flight_saved order x : (forall l, Permutation (order l) l) -> In x (in_flight k) -> In x (objects order (st_simplex (k_state k))).
  Proof. intros O H. unfold objects. apply in_app_iff. left. eapply Permutation_in; [symmetry; apply O|]. eapply Permutation_in; [apply tasks_perm|]. exact H. Qed.
End Props.
