(** Property theorems C26-C33, C35-C37, C39, C55: whole searches.

    [reaches g s file k] (SpecSearch.v): the search with configuration [g], started
    in state [s], is in the situation [k] after some sequence of scheduler turns,
    ends and failures of minimizations, and saves.  [good_start g s rs ps Q P]: the
    start state has the results [rs], refined positions [ps], waiting simplices [Q]
    and waiting positions [P]; C39 shows that constructing a search, fresh or
    restored, gives such a state. *)
From Coq Require Import String.
From Verif Require Import Base BaseFacts CoordSys SpecGeom CoordSysFacts CellList Values Container SpecContainer ContainerFacts ContainerHist
  Queue QueueFacts SpecQueue Mesh SpecMesh Hdf5 SpecHdf5 Hdf5Facts NelderMead SpecMin Controller SpecSearch SpecRun
  ControllerFacts ControllerSteps SearchFacts SearchProps SearchRestart SearchStart SearchEnd SearchGenuine SearchExample.
Open Scope list_scope.
Open Scope Qc_scope.

(** *** C26 *)
Theorem C26_parallel_limit : forall g rs ps Q P s file k, good_config g -> good_start g s rs ps Q P -> reaches g s file k ->
  (running_now k <= g_parallel g)%nat /\ (List.length (in_flight k) <= g_parallel g)%nat.
Proof. intros g rs ps Q P s file k GC GS R. pose proof (parallel_limit g rs ps Q P s file k GC GS R). lia. Qed.
Print Assumptions C26_parallel_limit.

(** finding: with a stencil that contains the same simplex twice the limit is exceeded *)
Theorem C26_duplicate_stencil_refuted : exists g s evs k,
  ex_state = Ok s /\ wf_box (g_cs g) /\ Forall (valid_event (g_cs g)) evs /\
  run_events g (start s None) evs = Some k /\ g_parallel g = 2%nat /\ running_now k = 3%nat.
Proof. exists (ex_g (Some dup_stencil) 2). destruct (ex_inv _ _ _ dup_over_limit) as (s & k & E & R & H). apply summary_inv in H as (_ & _ & _ & _ & _ & _ & H).
  exists s, dup_events, k. split; auto. split; [apply cs1_wf|]. split; [repeat constructor|]. split; [exact R|]. split; [reflexivity|]. exact H. Qed.
Print Assumptions C26_duplicate_stencil_refuted.

(** *** C27 *)
Theorem C27_no_simplex_lost : forall g rs ps Q P s file k, good_config g -> good_start g s rs ps Q P -> reaches g s file k ->
  (forall x, In x (Q ++ refinements g (k_log k)) <->
     In x (q_queued (st_simplex (k_state k))) \/ In x (in_flight k) \/ In x (map fst (recorded (k_log k))) \/ In x (discarded (k_log k))) /\
  NoDup (q_queued (st_simplex (k_state k)) ++ in_flight k ++ map fst (recorded (k_log k)) ++ discarded (k_log k)).
Proof. intros g rs ps Q P s file k GC GS R. split; [intros x; apply (scheduled_set g rs ps Q P s file k GC GS R)|].
  eapply Permutation_NoDup; [symmetry; apply (partition g rs ps Q P s file k GC GS R)|]. apply first_occ_nodup. Qed.
Print Assumptions C27_no_simplex_lost.
(** a simplex is started or discarded according to the nodes known at that moment *)
Theorem C27_why_started_or_discarded : forall g rs ps Q P s file k, good_config g -> good_start g s rs ps Q P -> reaches g s file k ->
  forall before x after,
  let near := count (node_near (g_cs g) (g_cutoff g) (nodes_of g (rs ++ map snd (recorded before)))) x in
  (k_log k = before ++ AStart x :: after -> (near <= g_simplex_cutoff g)%nat) /\
  (k_log k = before ++ ADiscard x :: after -> (g_simplex_cutoff g < near)%nat).
Proof. intros g rs ps Q P s file k GC GS R before x after near. split; intros E; exact (decisions g rs ps Q P s file k GC GS R _ _ _ E). Qed.
Print Assumptions C27_why_started_or_discarded.
Theorem C27_only_scheduled : forall g rs ps Q P s file k, good_config g -> good_start g s rs ps Q P -> reaches g s file k ->
  forall x, In x (started (k_log k)) -> In x (Q ++ refinements g (k_log k)).
Proof. intros g rs ps Q P s file k GC GS R. apply (started_scheduled g rs ps Q P s file k GC GS R). Qed.
Print Assumptions C27_only_scheduled.
(** positions: scheduled ones are waiting, refined or skipped; only positions of nodes are scheduled *)
Theorem C27_no_position_lost : forall g rs ps Q P s file k, good_config g -> good_start g s rs ps Q P -> reaches g s file k ->
  (forall p, In p (P ++ to_refine (k_log k)) <-> In p (q_queued (st_position (k_state k))) \/ In p (refined (k_log k)) \/ In p (skipped (k_log k))) /\
  (forall before p after, k_log k = before ++ ASkip p :: after ->
     exists q, In q (ps ++ refined before) /\ dist_lt (g_cs g) p q (g_cutoff g) = true) /\
  (forall before p after, k_log k = before ++ AQueue p :: after ->
     exists x r before', before = before' ++ [ARecord x r] /\ is_node (g_gap g) r = true /\ p = normalize_position (g_cs g) (pos_of r)).
Proof. intros g rs ps Q P s file k GC GS R. split; [intros p; apply (position_set g rs ps Q P s file k GC GS R)|]. split; intros before p after E; pose proof (decisions g rs ps Q P s file k GC GS R _ _ _ E) as D; cbn in D.
  - apply D.
  - destruct D as (l' & x & r & A & B & C & _). exists x, r, l'. auto. Qed.
Print Assumptions C27_no_position_lost.

(** *** C28 *)
Theorem C28_minimized_once : forall g rs ps Q P s file k, good_config g -> good_start g s rs ps Q P -> reaches g s file k ->
  NoDup (started (k_log k)) /\ Permutation (started (k_log k)) (in_flight k ++ map fst (recorded (k_log k))).
Proof. intros g rs ps Q P s file k GC GS R. split; [apply (started_nodup g rs ps Q P s file k GC GS R)|apply (started_split g rs ps Q P s file k GC GS R)]. Qed.
Print Assumptions C28_minimized_once.
Theorem C28_one_result_each : forall g rs ps Q P s file k, good_config g -> good_start g s rs ps Q P -> reaches g s file k ->
  let all := map (stored (g_cs g)) (rs ++ map snd (recorded (k_log k))) in
  cl_flat (c_nodes (st_result (k_state k))) = filter (is_node (g_gap g)) all /\
  c_rejected (st_result (k_state k)) = filter (fun r => negb (is_node (g_gap g) r)) all /\
  cl_flat (c_refined (st_result (k_state k))) = ps ++ refined (k_log k).
Proof. intros g rs ps Q P s file k GC GS R. exact (results g rs ps Q P s file k GC GS R). Qed.
Print Assumptions C28_one_result_each.
(** finding: with a stencil containing a simplex twice, the simplex is minimized
    twice at the same time and the search ends with a KeyError *)
Theorem C28_duplicate_stencil_refuted : exists g s evs k,
  ex_state = Ok s /\ wf_box (g_cs g) /\ Forall (valid_event (g_cs g)) evs /\
  run_events g (start s None) evs = Some k /\ k_phase k = Raised KeyError.
Proof. exists (ex_g (Some dup_stencil) 2). destruct (ex_inv _ _ _ dup_keyerror) as (s & k & E & R & H). apply summary_inv in H as (H & _).
  exists s, (dup_events ++ [EDone 0 (nd 25 1); EDone 1 (nd 25 1); ETurn 0]), k. split; auto. split; [apply cs1_wf|]. split; [repeat constructor|]. split; [exact R|].
  apply phase_keyerror. exact H. Qed.
Print Assumptions C28_duplicate_stencil_refuted.

(** *** C29 *)
Theorem C29_complete : forall g rs ps Q P s file k, good_config g -> good_start g s rs ps Q P -> reaches g s file k -> k_phase k = Returned ->
  q_queued (st_simplex (k_state k)) = [] /\ in_flight k = [] /\ q_queued (st_position (k_state k)) = [] /\
  (forall x, In x (Q ++ refinements g (k_log k)) <-> In x (map fst (recorded (k_log k))) \/ In x (discarded (k_log k))) /\
  (forall p, In p (P ++ to_refine (k_log k)) <-> In p (refined (k_log k)) \/ In p (skipped (k_log k))) /\
  Permutation (started (k_log k)) (map fst (recorded (k_log k))) /\
  Permutation (map (stored (g_cs g)) (rs ++ map snd (recorded (k_log k)))) (minimization_results (st_result (k_state k))).
Proof. intros g rs ps Q P s file k GC GS R Ph. destruct (complete g rs ps Q P s file k GC GS R (or_introl Ph)) as (A & B & C & D).
  assert (F : in_flight k = []) by (unfold in_flight; rewrite D; reflexivity).
  split; auto. split; auto. split; auto. split; [|split; [|split]].
  - intros x. rewrite (scheduled_set g rs ps Q P s file k GC GS R). rewrite A, F. cbn. tauto.
  - intros p. rewrite (position_set g rs ps Q P s file k GC GS R). rewrite C. cbn. tauto.
  - rewrite (started_split g rs ps Q P s file k GC GS R), F. reflexivity.
  - destruct (results g rs ps Q P s file k GC GS R) as (N & Rj & _). unfold minimization_results, nodes_of in *. rewrite N, Rj.
    generalize (map (stored (g_cs g)) (rs ++ map snd (recorded (k_log k)))) as l. induction l as [|a l IH]; cbn; auto.
    destruct (is_node (g_gap g) a); cbn; [constructor; auto|]. rewrite <- Permutation_middle. constructor. auto. Qed.
Print Assumptions C29_complete.

(** *** C30 *)
Theorem C30_refined_separated : forall g rs ps Q P s file k, good_config g -> good_start g s rs ps Q P -> reaches g s file k ->
  g_recheck g = true -> g_count_cutoff g = 0%nat ->
  separated (g_cs g) (g_cutoff g) (refined (k_log k)) /\
  (forall p q, In p (refined (k_log k)) -> In q ps -> dist_lt (g_cs g) p q (g_cutoff g) = false).
Proof. intros g rs ps Q P s file k GC GS R. apply (refined_separated g rs ps Q P s file k GC GS R). Qed.
Print Assumptions C30_refined_separated.

(** *** C31 *)
Theorem C31_bounded_work : forall g rs ps Q P s file k, good_config g -> good_start g s rs ps Q P -> reaches g s file k ->
  periodic (g_cs g) = true -> 0 < g_cutoff g -> g_recheck g = true -> g_count_cutoff g = 0%nat ->
  (List.length (refined (k_log k)) <= packing_bound (g_cs g) (g_cutoff g))%nat /\
  (List.length (started (k_log k)) <= List.length Q + packing_bound (g_cs g) (g_cutoff g) * match g_stencil g with Some st => List.length st | None => 0 end)%nat.
Proof. intros g rs ps Q P s file k GC GS R. exact (bounded g rs ps Q P s file k GC GS R). Qed.
Print Assumptions C31_bounded_work.

(** *** C32 *)
(** a turn without pending failure leaves something running, or the search is over after at most one more turn *)
Theorem C32_progress : forall g rs ps Q P s file k, good_config g -> good_start g s rs ps Q P -> reaches g s file k ->
  forall pick k', (1 <= g_parallel g)%nat -> exceptions (k_tasks k) = [] -> step g k (ETurn pick) = Some k' ->
    (1 <= running_now k')%nat \/ k_phase k' = Draining \/ (forall pick', exists k'', step g k' (ETurn pick') = Some k'' /\ k_phase k'' = Draining).
Proof. intros g rs ps Q P s file k GC GS R pick k' Par E St. destruct (progress g rs ps Q P s file k GC GS R pick k' Par E St) as (_ & _ & H).
  destruct (running_now k'); [right; apply H; auto|left; lia]. Qed.
Print Assumptions C32_progress.
Theorem C32_gather : forall g rs ps Q P s file k, good_config g -> good_start g s rs ps Q P -> reaches g s file k ->
  k_phase k = Draining -> forall pick, exists k', step g k (EGather pick) = Some k' /\ k_phase k' = Returned /\ k_state k' = k_state k.
Proof. intros g rs ps Q P s file k GC GS R Ph pick. apply (gather_immediate g rs ps Q P s file k GC GS R); auto. Qed.
Print Assumptions C32_gather.
(** every fair run of a periodic search ends: with a result or an exception *)
Theorem C32_search_ends : forall g rs ps Q P s file k ev, good_config g -> good_start g s rs ps Q P -> fair_run g s file k ev ->
  (1 <= g_parallel g)%nat -> periodic (g_cs g) = true -> 0 < g_cutoff g -> g_recheck g = true -> g_count_cutoff g = 0%nat ->
  exists i, over (k i).
Proof. exact ends_periodic. Qed.
Print Assumptions C32_search_ends.
(** likewise without refinement, periodic or not *)
Theorem C32_unrefined_search_ends : forall g rs ps Q P s file k ev, good_config g -> good_start g s rs ps Q P -> fair_run g s file k ev ->
  (1 <= g_parallel g)%nat -> g_stencil g = None -> exists i, over (k i).
Proof. exact ends_unrefined. Qed.
Print Assumptions C32_unrefined_search_ends.
(** likewise whenever the number of refinements stays bounded *)
Theorem C32_bounded_search_ends : forall g rs ps Q P s file k ev, good_config g -> good_start g s rs ps Q P -> fair_run g s file k ev ->
  (1 <= g_parallel g)%nat -> (exists B, forall i, (List.length (refined (k_log (k i))) <= B)%nat) -> exists i, over (k i).
Proof. intros g rs ps Q P s file k ev GC GS F Par (B & HB). apply (ends g rs ps Q P s file k ev GC GS F Par (List.length Q + B * stencil_size g)%nat).
  intros i. pose proof (started_bound g rs ps Q P s file (k i) GC GS (fair_reaches g s file k ev F i)) as X. pose proof (Nat.mul_le_mono_r _ _ (stencil_size g) (HB i)). unfold nstarted. lia. Qed.
Print Assumptions C32_bounded_search_ends.
(** finding: with num_minimize_parallel = 0 and something to do, the search loops
    forever without doing anything *)
Theorem C32_zero_parallel_refuted : forall g rs ps Q P s file k, g_parallel g = 0%nat -> good_start g s rs ps Q P -> Q <> [] ->
  reaches g s file k -> k_phase k = Running /\ k_tasks k = [] /\ k_log k = [].
Proof. intros g rs ps Q P s file k P0 GS NQ (evs & _ & Rn). destruct (spins g evs P0 (start s file) k eq_refl eq_refl) as (A & B & C); auto.
  destruct GS as [_ (Q1 & Q2 & _) _ _ _ _ _]. unfold loop_condition, finished, objects. cbn. rewrite Q1, Q2. destruct Q; [congruence|reflexivity]. Qed.
Print Assumptions C32_zero_parallel_refuted.

(** *** C33 *)
Theorem C33_failures_surface : forall g rs ps Q P s file evs k, good_config g -> good_start g s rs ps Q P ->
  Forall (valid_event (g_cs g)) evs -> run_events g (start s file) evs = Some k ->
  (forall i e, In (EFail i e) evs -> k_phase k = Running \/ exists e', k_phase k = Raised e') /\
  (forall i e pick, In (EFail i e) evs -> k_phase k = Running ->
     exists k' j e', step g k (ETurn pick) = Some k' /\ k_phase k' = Raised e' /\ In (EFail j e') evs) /\
  (forall e, k_phase k = Raised e -> exists i, In (EFail i e) evs).
Proof. intros g rs ps Q P s file evs k GC GS V Rn. destruct (failures g rs ps Q P GC s file evs k GS V Rn) as (A & B & C). auto. Qed.
Print Assumptions C33_failures_surface.
(** everything unfinished, including failed minimizations, is in what is saved *)
Theorem C33_unfinished_saved : forall g rs ps Q P s file k, good_config g -> good_start g s rs ps Q P -> reaches g s file k ->
  forall order x, (forall l, Permutation (order l) l) -> In x (in_flight k) -> In x (objects order (st_simplex (k_state k))).
Proof. intros g rs ps Q P s file k GC GS R order x O. apply (in_flight_saved g rs ps Q P s file k GC GS R); auto. Qed.
Print Assumptions C33_unfinished_saved.
(** in a search on a potential, the exception raised is one of the potential's *)
Theorem C33_only_user_exceptions : forall g p evals raises rs ps Q P s file k, good_config g -> good_start g s rs ps Q P -> proper_simplices g Q ->
  search g p evals raises s file k -> forall e, k_phase k = Raised e -> exists y, raises y e.
Proof. intros g p evals raises rs ps Q P s file k GC GS PS S e Ph. exact (genuine_exception g p evals raises GC rs ps Q P s file GS PS k e S Ph). Qed.
Print Assumptions C33_only_user_exceptions.

(** *** C35 *)
(** a state saved at any moment, read back, gives a search with the same results
    and refined positions in which exactly what was queued or in flight waits *)
Theorem C35_restart : forall g rs ps Q P s file k, good_config g -> good_start g s rs ps Q P -> reaches g s file k ->
  Forall (own_position (g_cs g)) rs -> Forall (child_pos (g_cs g)) rs ->
  forall order order' quiet mesh t, (forall l, Permutation (order l) l) -> (forall l, Permutation (order' l) l) ->
  same_file (enc_state order (k_state k)) t ->
  exists s' Q' P' rs', create_state order' (g_cs g) (g_gap g) (g_cutoff g) None true quiet (dec_state t) mesh false = Ok s' /\
    good_start g s' rs' (ps ++ refined (k_log k)) Q' P' /\
    cl_flat (c_nodes (st_result s')) = cl_flat (c_nodes (st_result (k_state k))) /\
    c_rejected (st_result s') = c_rejected (st_result (k_state k)) /\
    Permutation Q' (q_queued (st_simplex (k_state k)) ++ in_flight k) /\
    P' = q_queued (st_position (k_state k)) /\
    (forall x, In x Q' -> ~ In x (map fst (recorded (k_log k))) /\ ~ In x (discarded (k_log k))).
Proof. intros g rs ps Q P s file k GC GS R OP CP order order' quiet mesh t O O' Sf.
  destruct (restart g rs ps Q P s file k GC GS R OP CP order order' quiet mesh t O O' Sf) as (s' & E & G & A & B & C).
  destruct (objects_facts g rs ps Q P s file k GC GS R order O) as (F1 & _ & _ & _ & F2 & F3).
  destruct (results g rs ps Q P s file k GC GS R) as (_ & _ & Rf). rewrite Rf in G.
  exists s', (objects order (st_simplex (k_state k))), (q_queued (st_position (k_state k))), (minimization_results (st_result (k_state k))).
  split; auto. split; auto. split; auto. split; auto. split; auto. split; auto. intros x Hx. split; intros X; [eapply F2|eapply F3]; eauto. Qed.
Print Assumptions C35_restart.
(** restarting a finished calculation does nothing and returns the same nodes *)
Theorem C35_finished_restart : forall g rs ps Q P s file k, good_config g -> good_start g s rs ps Q P -> reaches g s file k ->
  Forall (own_position (g_cs g)) rs -> Forall (child_pos (g_cs g)) rs -> k_phase k = Returned ->
  forall order order' quiet mesh t, (forall l, Permutation (order l) l) -> (forall l, Permutation (order' l) l) ->
  same_file (enc_state order (k_state k)) t ->
  exists s', create_state order' (g_cs g) (g_gap g) (g_cutoff g) None true quiet (dec_state t) mesh false = Ok s' /\
    forall file' k', reaches g s' file' k' ->
      started (k_log k') = [] /\ k_tasks k' = [] /\
      cl_flat (c_nodes (st_result (k_state k'))) = cl_flat (c_nodes (st_result (k_state k))).
Proof. intros g rs ps Q P s file k GC GS R OP CP Ph order order' quiet mesh t O O' Sf.
  destruct (restart g rs ps Q P s file k GC GS R OP CP order order' quiet mesh t O O' Sf) as (s' & E & G & A & B & C).
  destruct (complete g rs ps Q P s file k GC GS R (or_introl Ph)) as (Z1 & Z2 & Z3 & _).
  assert (Z : objects order (st_simplex (k_state k)) = []). { unfold objects. rewrite Z1, Z2, app_nil_r. pose proof (O []) as X. apply Permutation_sym, Permutation_nil in X. exact X. }
  rewrite Z, Z3 in G. exists s'. split; auto. intros file' k' R'. destruct (nothing_to_do g s' _ _ file' k' GC G R') as (L & T & N). rewrite L. split; auto. split; auto. congruence. Qed.
Print Assumptions C35_finished_restart.
(** finding: restarting without refinement stencil while a position waits ends with
    a TypeError and the position is no longer in the state *)
Theorem C35_no_stencil_refuted : exists g s1 evs k0 s k,
  ex_state = Ok s1 /\ run_events g (start s1 None) evs = Some k0 /\ good_config g /\ Forall (valid_event (g_cs g)) evs /\
  let g' := mk_config (g_cs g) (g_gap g) (g_cutoff g) None (g_parallel g) (g_recheck g) (g_count_cutoff g) (g_simplex_cutoff g) in
  create_state (fun l => l) (g_cs g) (g_gap g) (g_cutoff g) (Some (k_state k0)) false false (Err IOError) [2%nat] false = Ok s /\
  List.length (q_queued (st_position s)) = 1%nat /\
  run_events g' (start s None) [ETurn 0] = Some k /\ k_phase k = Raised TypeError /\ q_queued (st_position (k_state k)) = [].
Proof. exists (ex_g (Some ex_stencil) 2). destruct (restart_inv _ _ _ _ _ _ stuck) as (s1 & k0 & s & k & E1 & R0 & C & R1 & H & H1 & H2). apply summary_inv in H as (H0 & _).
  exists s1, stuck_events, k0, s, k. split; [exact E1|]. split; [exact R0|]. split; [apply ex_config_std|]. split; [repeat constructor|]. split; [exact C|].
  split; [exact H1|]. split; [exact R1|]. split; [apply phase_typeerror; exact H0|].
  destruct (q_queued (st_position (k_state k))); [reflexivity|discriminate H2]. Qed.
Print Assumptions C35_no_stencil_refuted.

(** *** C36 *)
Theorem C36_saved_is_current : forall g rs ps Q P s file k, good_config g -> good_start g s rs ps Q P -> reaches g s file k ->
  needs_saving (k_state k) = false ->
  exists snap order, (forall l, Permutation (order l) l) /\ k_file k = Some (enc_state order snap) /\ snapshot_of snap (k_state k).
Proof. intros g rs ps Q P s file k GC GS R. exact (reach_saved g rs ps Q P GC s file k GS R). Qed.
Print Assumptions C36_saved_is_current.

(** *** C37 *)
Theorem C37_nodes_evaluated : forall g p evals raises rs ps Q P s file k, good_config g -> good_start g s rs ps Q P -> proper_simplices g Q ->
  search g p evals raises s file k -> (forall y v, evals y v -> v <> NaN) -> g_gap g <> NaN ->
  forall r, In r (cl_flat (c_nodes (st_result (k_state k)))) -> In r (nodes_of g rs) \/
    success_of r = true /\ fle (value_of r) (g_gap g) = true /\
    exists y, evals y (value_of r) /\ pos_of r = normalize_position (g_cs g) y /\ (periodic (g_cs g) = true -> in_box (g_cs g) (pos_of r)).
Proof. intros g p evals raises rs ps Q P s file k GC GS PS S N Ng r Hr.
  destruct (genuine_nodes g p evals raises GC rs ps Q P s file GS PS k S N Ng r Hr) as [H|(A & B & y & C & D & E)]; auto.
  right. split; auto. split; auto. exists y. split; auto. split; auto. intros Per. rewrite D. apply normalize_in_box; auto. apply GC. Qed.
Print Assumptions C37_nodes_evaluated.
(** for a deterministic potential f: f(position) is the reported value when f has
    the periodicity of the box, and always without periodicity *)
Theorem C37_value_at_node : forall g p (f : point -> fval) raises ps Q P s file k, good_config g -> good_start g s [] ps Q P -> proper_simplices g Q ->
  (forall y, f y <> NaN) -> g_gap g <> NaN -> (periodic (g_cs g) = true -> forall y z, lattice_eq (g_cs g) y z -> f y = f z) ->
  search g p (fun y v => v = f y) raises s file k ->
  forall r, In r (cl_flat (c_nodes (st_result (k_state k)))) -> value_of r = f (pos_of r) /\ fle (f (pos_of r)) (g_gap g) = true.
Proof. intros g p f raises ps Q P s file k GC GS PS N Ng Pf S r Hr.
  destruct (genuine_nodes g p _ raises GC [] ps Q P s file GS PS k S) with (r := r) as [[]|(A & B & y & C & D & E)]; auto.
  - intros y v ->. apply N.
  - assert (V : value_of r = f (pos_of r)); [|split; auto; rewrite <- V; auto]. rewrite C, D. destruct (periodic (g_cs g)) eqn:Per.
    + apply Pf; auto. apply normalize_shifted; auto.
    + rewrite normalize_nonper; auto. Qed.
Print Assumptions C37_value_at_node.

(** *** C55: when the search returns, every node found in it has been refined, or
    lies closer than the cutoff to a refined position *)
Theorem C55_every_node_refined : forall g rs ps Q P s file k, good_config g -> good_start g s rs ps Q P -> reaches g s file k ->
  k_phase k = Returned -> g_stencil g <> None -> 0 < g_cutoff g ->
  forall r, In r (nodes_of g (map snd (recorded (k_log k)))) ->
  exists q, In q (cl_flat (c_refined (st_result (k_state k)))) /\ dist_lt (g_cs g) (pos_of r) q (g_cutoff g) = true.
Proof. intros g rs ps Q P s file k GC GS R Ph St C r Hr. apply filter_In in Hr as [Hr Hn]. apply in_map_iff in Hr as (r0 & <- & Hr). apply in_map_iff in Hr as ([x r1] & Er & Hr). cbn in Er. subst r1.
  destruct (results g rs ps Q P s file k GC GS R) as (_ & _ & Rf). rewrite Rf. unfold stored. rewrite pos_of_set_pos.
  rewrite is_node_stored in Hn. apply (refined_nodes g rs ps Q P s file k GC GS R St (or_introl Ph) C x r0 Hr Hn). Qed.
Print Assumptions C55_every_node_refined.

(** *** C39 *)
Theorem C39_load_and_initial_rejected : forall order cs gap cutoff s0 quiet lf mesh force,
  create_state order cs gap cutoff (Some s0) true quiet lf mesh force = Err ValueError.
Proof. reflexivity. Qed.
Print Assumptions C39_load_and_initial_rejected.
(** loading a file is the same as passing the state stored in it *)
Theorem C39_load_uses_file : forall order cs gap cutoff s0 quiet quiet' lf mesh force,
  create_state order cs gap cutoff None true quiet (Ok s0) mesh force =
  create_state order cs gap cutoff (Some s0) false quiet' lf mesh force.
Proof. reflexivity. Qed.
Print Assumptions C39_load_uses_file.
Theorem C39_load_errors : forall order cs gap cutoff e mesh force,
  create_state order cs gap cutoff None true false (Err e) mesh force = Err e /\
  (e <> IOError -> create_state order cs gap cutoff None true true (Err e) mesh force = Err e) /\
  (forall lf quiet, create_state order cs gap cutoff None true true (Err IOError) mesh force =
     create_state order cs gap cutoff None false quiet lf mesh force).
Proof. intros. split; [destruct e; reflexivity|]. split; [|reflexivity]. intros N. destruct e; try reflexivity. congruence. Qed.
Print Assumptions C39_load_errors.
Theorem C39_wrong_mesh_dimension : forall order lims per gap cutoff s0 load quiet lf l force, List.length l <> List.length lims ->
  controller_init order lims per gap cutoff s0 load quiet lf (MeshList l) force = Err ValueError.
Proof. intros. unfold controller_init, check_dimensions. destruct (List.length lims =? List.length l)%nat eqn:E; [apply Nat.eqb_eq in E; congruence|reflexivity]. Qed.
Print Assumptions C39_wrong_mesh_dimension.
Theorem C39_integer_mesh : forall order lims per gap cutoff s0 load quiet lf m force,
  controller_init order lims per gap cutoff s0 load quiet lf (MeshInt m) force =
  controller_init order lims per gap cutoff s0 load quiet lf (MeshList (repeat m (List.length lims))) force.
Proof. reflexivity. Qed.
Print Assumptions C39_integer_mesh.
(** a fresh search starts with no results and the mesh simplices *)
Theorem C39_fresh_start : forall g order load lf mesh force, good_config g -> mesh_args (limits (g_cs g)) mesh ->
  (load = false \/ (load = true /\ lf = Err IOError)) ->
  exists ss s, generate_mesh_simplices (limits (g_cs g)) mesh (periodic (g_cs g)) false = Ok ss /\
    create_state order (g_cs g) (g_gap g) (g_cutoff g) None load true lf mesh force = Ok s /\
    good_start g s [] [] (map norm_simplex ss) [].
Proof. exact fresh_start. Qed.
Print Assumptions C39_fresh_start.
(** a restored search (from a file or a given state, possibly computed with another
    threshold, cutoff or box) has all old results, classified anew; what was queued
    or running waits; with [force_initial_mesh] the mesh simplices are added *)
Theorem C39_restored_start : forall g order s0 (load : bool) lf mesh (force : bool) ss, good_config g -> usable_state g order s0 ->
  mesh_args (limits (g_cs g)) mesh -> generate_mesh_simplices (limits (g_cs g)) mesh (periodic (g_cs g)) false = Ok ss ->
  exists s Q, create_state order (g_cs g) (g_gap g) (g_cutoff g) (if load then None else Some s0) load false (if load then Ok s0 else lf) mesh force = Ok s /\
    good_start g s (minimization_results (st_result s0)) (cl_flat (c_refined (st_result s0))) Q (objects (fun l => l) (st_position s0)) /\
    (forall x, In x Q <-> In x (objects order (st_simplex s0)) \/ (force = true /\ In x (map norm_simplex ss))) /\
    cl_flat (c_nodes (st_result s)) = filter (is_node (g_gap g)) (map (stored (g_cs g)) (minimization_results (st_result s0))).
Proof. intros g order s0 load lf mesh force ss GC U A E. destruct (restored_start g order s0 load lf mesh force ss GC U A E) as (s & Ec & G).
  eexists s, _. split; [exact Ec|]. split; [exact G|]. split.
  - intros x. destruct force; [|intuition discriminate]. unfold with_mesh. rewrite in_app_iff, filter_In. destruct (mem x (objects order (st_simplex s0))) eqn:M.
    + apply mem_spec in M. tauto.
    + cbn. tauto.
  - destruct (hist_classification (gc_box g GC) (gs_result _ _ _ _ _ _ G)) as (X & _). exact X. Qed.
Print Assumptions C39_restored_start.

(** *** The hypotheses are met: a search on a 2-point mesh that finds three nodes,
    refines twice, discards one simplex and returns *)
Theorem C29_hypotheses_met : exists g Q s file k, good_config g /\ good_start g s [] [] Q [] /\ reaches g s file k /\
  k_phase k = Returned /\ g_stencil g <> None /\ periodic (g_cs g) = true /\ 0 < g_cutoff g /\ g_recheck g = true /\ g_count_cutoff g = 0%nat /\ g_parallel g = 2%nat /\
  List.length (started (k_log k)) = 5%nat /\ List.length (discarded (k_log k)) = 1%nat /\ List.length (refined (k_log k)) = 2%nat /\
  List.length (cl_flat (c_nodes (st_result (k_state k)))) = 3%nat.
Proof. destruct (ex_started (Some ex_stencil) 2 (ex_config_std 2)) as (s & ss & E & G & _).
  destruct (ex_inv _ _ _ ex_complete) as (s' & k & E' & R & H). rewrite E in E'. injection E' as <-. apply summary_inv in H as (H0 & H1 & H2 & _ & H4 & H5 & _).
  exists (ex_g (Some ex_stencil) 2), (map norm_simplex ss), s, None, k. split; [apply ex_config_std|]. split; auto.
  split; [exists ex_events; split; [apply ex_valid|exact R]|].
  split; [apply phase_returned; exact H0|]. split; [discriminate|]. split; [reflexivity|].
  split; [reflexivity|]. split; [reflexivity|]. split; [reflexivity|]. split; [reflexivity|]. split; [exact H1|]. split; [exact H2|]. split; [exact H4|]. exact H5. Qed.
Print Assumptions C29_hypotheses_met.

(** a fair run of that search *)
Theorem C32_hypotheses_met : exists g Q s file k ev, good_config g /\ good_start g s [] [] Q [] /\ fair_run g s file k ev /\
  (1 <= g_parallel g)%nat /\ periodic (g_cs g) = true /\ 0 < g_cutoff g /\ g_recheck g = true /\ g_count_cutoff g = 0%nat /\ g_stencil g <> None.
Proof. destruct (ex_started (Some ex_stencil) 2 (ex_config_std 2)) as (s & ss & E & G & _).
  destruct (ex_inv _ _ _ ex_complete) as (s' & kf & E' & R & H). rewrite E in E'. injection E' as <-. apply summary_inv in H as (H0 & _).
  pose (evs := removelast ex_events).
  exists (ex_g (Some ex_stencil) 2), (map norm_simplex ss), s, None, (fin_k (ex_g (Some ex_stencil) 2) s None evs 0), (fin_ev evs 0).
  split; [apply ex_config_std|]. split; auto. split.
  - eapply (finite_fair _ [] [] (map norm_simplex ss) [] s None evs 0 kf); auto; [apply ex_config_std|apply (ex_valid (Some ex_stencil) 2)|].
    apply phase_returned. exact H0.
  - split; [cbn; lia|]. split; [reflexivity|]. split; [reflexivity|]. split; [reflexivity|]. split; [reflexivity|]. discriminate. Qed.
Print Assumptions C32_hypotheses_met.

(** a search on the potential d (1 - d), d the fractional part, that finds a node *)
Theorem C37_hypotheses_met : exists g p (f : point -> fval) Q s k, good_config g /\ good_start g s [] [] Q [] /\ proper_simplices g Q /\
  (forall y, f y <> NaN) /\ g_gap g <> NaN /\ (forall y z, lattice_eq (g_cs g) y z -> f y = f z) /\
  search g p (fun y v => v = f y) (fun _ _ => False) s None k /\ k_phase k = Returned /\
  List.length (cl_flat (c_nodes (st_result (k_state k)))) = 1%nat.
Proof. exists par_g, par_p, par_f.
  assert (GC : good_config par_g) by (constructor; cbn; [apply cs1_wf|left; reflexivity|discriminate]).
  assert (M : mesh_args (limits (g_cs par_g)) [1%nat]) by (split; [reflexivity|split; repeat constructor]).
  destruct (fresh_start par_g (fun l => l) false (Err IOError) [1%nat] false GC M (or_introl eq_refl)) as (ss & s & A & B & C).
  destruct (check_inv _ _ _ _ par_ok) as (s' & r & ow & w & k1 & k2 & k3 & k4 & B' & Em & S1 & S2 & S3 & S4 & H & Tx).
  rewrite B in B'. injection B' as <-. apply summary_inv in H as (H0 & _ & _ & _ & _ & H5 & _).
  exists (map norm_simplex ss), s, k4. split; auto. split; auto. split; [|split; [|split; [|split; [|split; [|split]]]]].
  - split; [|intros st Hst; discriminate Hst]. apply Forall_forall. intros x Hx'. apply in_map_iff in Hx' as (y & <- & Hy).
    destruct (MeshFacts.mesh_shape _ _ _ _ M A) as (_ & _ & Sh & _). rewrite Forall_forall in Sh. destruct (Sh y Hy) as [Sy|]; [|discriminate].
    eapply NelderMeadFacts.is_simplex_perm; [apply Permutation_sym, norm_simplex_perm|exact Sy].
  - discriminate.
  - discriminate.
  - intros y z L. unfold par_f. rewrite (normalize_lattice_inv (cs1 true) y z); auto. apply cs1_wf.
  - assert (X : search par_g par_p (fun y v => v = par_f y) (fun _ _ => False) s None k1) by (eapply search_step; [constructor| |exact S1]; exact I).
    assert (X2 : search par_g par_p (fun y v => v = par_f y) (fun _ _ => False) s None k2).
    { eapply search_step; [exact X| |exact S2]. intros x Hn. assert (Ex : x = par_x). { destruct (k_tasks k1) as [|t ts]; [discriminate|]. cbn in Hn, Tx. injection Hn as ->. cbn in Tx. apply (f_equal (hd [])) in Tx. exact Tx. }
      subst x. exists NelderMeadExtra.stable_argsort, (fun _ y => Ok (par_f y)), None. split; [apply NelderMeadExtra.stable_argsort_ok|].
      split; [intros _ y v [= <-]; reflexivity|]. split; [intros ? ? ? X0; discriminate X0|]. split; [intros ? X0; discriminate X0|]. exists ow, w. exact Em. }
    assert (X3 : search par_g par_p (fun y v => v = par_f y) (fun _ _ => False) s None k3) by (eapply search_step; [exact X2| |exact S3]; exact I).
    eapply search_step; [exact X3| |exact S4]. exact I.
  - apply phase_returned. exact H0.
  - exact H5. Qed.
Print Assumptions C37_hypotheses_met.
