(** Every event of the controller is a sequence of elementary steps; no event
    raises by itself. *)
From Coq Require Import String.
From Verif Require Import Base BaseFacts CoordSys SpecGeom CoordSysFacts CellList Values Container SpecContainer ContainerFacts ContainerHist
  Queue QueueFacts SpecQueue Hdf5 SpecHdf5 Controller SpecSearch ControllerFacts.
Open Scope list_scope.
Open Scope Qc_scope.

Section Steps.
  Variables (g : config) (rs0 : list result) (ps0 : list point) (Q0 : list simplex) (P0 : list point).
  Hypothesis GC : good_config g.
  Let cs := g_cs g.
  Notation inv := (inv g rs0 ps0 Q0 P0).
  Notation micros := (micros g).

  Definition measure (s : controller_state) : nat :=
    (length (q_queued (st_simplex s)) + length (q_queued (st_position s)) * stencil_size g)%nat.

  Lemma inv_check_pos x k p : inv x -> is_pos cs p -> exists b, check_pos_refinement (st_result (fst (fst x))) (g_cutoff g) k p = Ok b.
  Proof. intros I Hp. destruct (hist_check_pos (gc_box g GC) (i_hist _ _ _ _ _ _ I) k Hp (gc_lookup g GC)) as (b & E & _). eauto. Qed.
  Lemma inv_set_refined x p : inv x -> is_pos cs p -> exists c, set_refined (st_result (fst (fst x))) p = Ok c.
  Proof. intros I Hp. destruct (@hist_no_error _ _ _ _ _ _ (gc_box g GC) (i_hist _ _ _ _ _ _ I) (Plain {| r_pos := p; r_value := NaN; r_success := false; r_status := 0; r_num_fev := 0; r_num_iter := 0; r_simplex_history := []; r_fun_history := None |}) p) as (_ & H & _); auto. Qed.
  Lemma inv_check_simplex x k vs : inv x -> Forall (is_pos cs) vs -> exists b, check_simplex (st_result (fst (fst x))) (g_cutoff g) k vs = Ok b.
  Proof. intros I Hp. eexists. eapply hist_check_simplex; eauto using gc_box, gc_lookup. apply I. Qed.

  Lemma refine_loop_ok ps : forall s tasks log s' log' e, q_queued (st_position s) = ps -> inv (s, tasks, log) ->
    refine_loop g ps s log = (s', log', e) ->
    e = None /\ micros (s, tasks, log) (s', tasks, log') /\ (has_queued (st_simplex s') = true \/ q_queued (st_position s') = []) /\
    (measure s' <= measure s)%nat /\ q_running (st_simplex s') = q_running (st_simplex s).
  Proof. induction ps as [|p ps IH]; intros s tasks log s' log' e E I R; cbn [refine_loop] in R.
    - destruct (has_queued (st_simplex s)) eqn:Q; injection R as <- <- <-; repeat split; auto using ms_refl.
    - destruct (has_queued (st_simplex s)) eqn:Q; [injection R as <- <- <-; repeat split; auto using ms_refl|].
      assert (Pop : pop_object (st_position s) = Ok ({| q_queued := ps; q_all := q_all (st_position s); q_running := q_running (st_position s);
                        q_needs_saving := q_needs_saving (st_position s) |}, p)) by (unfold pop_object; rewrite E; reflexivity).
      rewrite Pop in R. set (pq := {| q_queued := ps; q_all := _; q_running := _; q_needs_saving := _ |}) in *.
      assert (Hp : is_pos cs p). { pose proof (i_pos _ _ _ _ _ _ I) as F. cbn [fst] in F. rewrite E in F. inversion F; auto. }
      destruct (inv_check_pos _ (g_count_cutoff g) p I Hp) as (b & Eb). cbn [fst] in Eb.
      destruct (g_stencil g) as [st|] eqn:St; [|pose proof (i_none _ _ _ _ _ _ I St) as X; cbn [fst] in X; congruence].
      destruct (inv_set_refined _ p I Hp) as (c & Ec). cbn [fst] in Ec.
      cbn [with_position st_result] in R.
      assert (Skip : g_recheck g = true -> b = false -> refine_loop g ps (with_position s pq) (log ++ [ASkip p]) = (s', log', e) -> 
        e = None /\ micros (s, tasks, log) (s', tasks, log') /\ (has_queued (st_simplex s') = true \/ q_queued (st_position s') = []) /\
        (measure s' <= measure s)%nat /\ q_running (st_simplex s') = q_running (st_simplex s)).
      { intros G -> R'. assert (M : micro g (s, tasks, log) (with_position s pq, tasks, log ++ [ASkip p])) by (eapply m_skip; eauto).
        destruct (IH (with_position s pq) tasks (log ++ [ASkip p]) s' log' e eq_refl (micro_inv _ _ _ _ _ GC _ _ I M) R') as (X1 & X2 & X3 & X4 & X5).
        repeat split; auto; [econstructor; eauto|]. etransitivity; [exact X4|]. unfold measure. cbn [with_position st_simplex st_position]. rewrite E. cbn. lia. }
      assert (Ref : (g_recheck g = true -> b = true) -> refine_loop g ps (with_result (with_simplex (with_position s pq) (add_objects norm_simplex (st_simplex s) (translate p st))) c) (log ++ [ARefine p]) = (s', log', e) ->
        e = None /\ micros (s, tasks, log) (s', tasks, log') /\ (has_queued (st_simplex s') = true \/ q_queued (st_position s') = []) /\
        (measure s' <= measure s)%nat /\ q_running (st_simplex s') = q_running (st_simplex s)).
      { intros G R'. set (s2 := with_result _ _) in R'. assert (M : micro g (s, tasks, log) (s2, tasks, log ++ [ARefine p])).
        { eapply (m_refine g s tasks log pq p st c); eauto. intros G'. rewrite (G G') in Eb. auto. }
        destruct (IH s2 tasks (log ++ [ARefine p]) s' log' e eq_refl (micro_inv _ _ _ _ _ GC _ _ I M) R') as (X1 & X2 & X3 & X4 & X5).
        repeat split; auto; [econstructor; eauto| |].
        - etransitivity; [exact X4|]. unfold measure. subst s2. cbn [with_position with_result with_simplex st_simplex st_position]. rewrite E. cbn.
          rewrite add_objects_queued, app_length. unfold stencil_size. rewrite St.
          match goal with |- context [length (filter ?f ?l)] => assert (L : (length (filter f l) <= length l)%nat) by (generalize l as l0; intros l0; induction l0; cbn; [lia|]; match goal with |- context [if ?x then _ else _] => destruct x end; cbn; lia) end.
          unfold translate in *. rewrite !map_length in L. cbn. lia.
        - rewrite X5. subst s2. cbn. apply add_objects_running. }
      destruct (g_recheck g) eqn:G.
      + rewrite Eb in R. destruct b.
        * cbn [st_simplex st_position st_result with_simplex with_position with_result] in R. rewrite Ec in R. apply Ref; auto.
        * apply Skip; auto.
      + cbn [st_simplex st_position st_result with_simplex with_position with_result] in R. rewrite Ec in R. apply Ref; auto. discriminate. Qed.

  (** After a turn either the limit is reached or nothing is left to start. *)
  Lemma fill_ok n : forall s tasks log s' tasks' log' e, (measure s < n)%nat -> inv (s, tasks, log) ->
    fill n g s tasks log = (s', tasks', log', e) ->
    e = None /\ micros (s, tasks, log) (s', tasks', log') /\
    ((g_parallel g <= num_running (st_simplex s'))%nat \/ (q_queued (st_simplex s') = [] /\ q_queued (st_position s') = [])).
  Proof. induction n as [|n IH]; intros s tasks log s' tasks' log' e L I F; [lia|]. cbn [fill] in F.
    destruct (num_running (st_simplex s) <? g_parallel g)%nat eqn:N.
    2: { injection F as <- <- <- <-. apply Nat.ltb_ge in N. repeat split; auto using ms_refl. }
    apply Nat.ltb_lt in N. destruct (refine_loop g (q_queued (st_position s)) s log) as [[s1 log1] e1] eqn:R.
    destruct (refine_loop_ok _ _ tasks _ _ _ _ eq_refl I R) as (-> & M & H & L1 & R1).
    pose proof (micros_inv _ _ _ _ _ GC _ _ I M) as I1.
    destruct (has_queued (st_simplex s1)) eqn:Q.
    2: { injection F as <- <- <- <-. repeat split; auto. right. split; [|destruct H; [discriminate|auto]]. unfold has_queued in Q. destruct (q_queued (st_simplex s1)); [auto|discriminate]. }
    unfold has_queued in Q. destruct (q_queued (st_simplex s1)) as [|sx sxs] eqn:Qs; [discriminate|]. clear Q.
    destruct (pop_running (st_simplex s1)) as [[q sx']|] eqn:Pop; [|unfold pop_running, pop_object in Pop; rewrite Qs in Pop; discriminate].
    destruct (pop_running_inv _ _ _ Pop) as (P1 & P2 & P3 & P4). rewrite Qs in P1. injection P1 as <- ->.
    assert (V : Forall (is_pos cs) sx).
    { pose proof (i_verts _ _ _ _ _ _ I1) as V. rewrite Forall_forall in V. apply V. pose proof (qi_order (i_q _ _ _ _ _ _ I1)) as O. cbn [fst snd] in *.
      apply (proj1 (first_occ_in [] _ sx)). rewrite <- O, Qs. apply in_app_iff. right. left. auto. }
    cbn [with_simplex st_result st_simplex] in F.
    destruct (inv_check_simplex _ (g_simplex_cutoff g) sx I1 V) as (b & Eb). cbn [fst] in Eb. rewrite Eb in F.
    assert (N1 : (num_running (st_simplex s1) < g_parallel g)%nat) by (unfold num_running in *; rewrite R1; auto).
    assert (LL : (measure s1 <= n)%nat) by lia. unfold measure in LL. rewrite Qs in LL. cbn [length] in LL.
    destruct b.
    - assert (M1 : micro g (s1, tasks, log1) (with_simplex s1 q, tasks ++ [mk_task sx Pending], log1 ++ [AStart sx])) by (eapply m_start; eauto).
      destruct (IH (with_simplex s1 q) (tasks ++ [mk_task sx Pending]) (log1 ++ [AStart sx]) s' tasks' log' e) as (X1 & X2 & X3); auto.
      + eapply micro_inv; eauto.
      + repeat split; auto. eapply micros_trans; [exact M|]. econstructor; eauto.
    - assert (In sx (q_running q)). { rewrite P3. unfold set_add. destruct (mem sx (q_running (st_simplex s1))) eqn:Mm; [apply mem_spec; auto|]. apply in_app_iff. right. left. auto. }
      destruct (set_finished q sx) as [q'|] eqn:SF; [|unfold set_finished in SF; rewrite (proj2 (mem_spec sx (q_running q))) in SF by auto; discriminate].
      destruct (set_finished_inv _ _ _ SF) as (F1 & _).
      assert (M1 : micro g (s1, tasks, log1) (with_simplex s1 q', tasks, log1 ++ [ADiscard sx])) by (eapply m_discard; eauto).
      destruct (IH (with_simplex s1 q') tasks (log1 ++ [ADiscard sx]) s' tasks' log' e) as (X1 & X2 & X3); auto.
      + unfold measure. cbn [with_simplex st_simplex st_position]. rewrite F1. lia.
      + eapply micro_inv; eauto.
      + repeat split; auto. eapply micros_trans; [exact M|]. econstructor; eauto. Qed.

  Definition mst (k : ctrl) : mstate := (k_state k, k_tasks k, k_log k).

  Lemma fill_exceptions n : forall s ts lg s' ts' lg' e, fill n g s ts lg = (s', ts', lg', e) -> exceptions ts = [] -> exceptions ts' = [].
  Proof. induction n as [|n IHn]; intros s ts lg s' ts' lg' e; cbn [fill]; destruct (_ <? _)%nat; intros F Ex; try (injection F as <- <- <- <-; exact Ex).
    destruct (refine_loop _ _ _ _) as [[s1 l1] [e1|]]; [injection F as <- <- <- <-; exact Ex|].
    destruct (has_queued _); [|injection F as <- <- <- <-; exact Ex].
    destruct (pop_running _) as [[q sx]|]; [|injection F as <- <- <- <-; exact Ex].
    destruct (check_simplex _ _ _ _) as [[|]|]; [| |injection F as <- <- <- <-; exact Ex].
    - eapply IHn; [exact F|]. unfold exceptions in *. rewrite flat_map_app, Ex. reflexivity.
    - destruct (set_finished _ _); [|injection F as <- <- <- <-; exact Ex]. eapply IHn; [exact F|auto]. Qed.

  Lemma turn_ok k pick : inv (mst k) ->
    k_file (turn g k pick) = k_file k /\
    match exceptions (k_tasks k) with
    | [] => micros (mst k) (mst (turn g k pick)) /\ exceptions (k_tasks (turn g k pick)) = [] /\
      (if loop_condition (k_state k)
       then k_phase (turn g k pick) = Running /\
            ((g_parallel g <= num_running (st_simplex (k_state (turn g k pick))))%nat \/
             (q_queued (st_simplex (k_state (turn g k pick))) = [] /\ q_queued (st_position (k_state (turn g k pick))) = []))
       else k_phase (turn g k pick) = Draining /\ k_state (turn g k pick) = k_state k /\ k_log (turn g k pick) = k_log k /\ k_tasks (turn g k pick) = pending (k_tasks k))
    | es => exists e, In e es /\ k_phase (turn g k pick) = Raised e /\ mst (turn g k pick) = mst k
    end.
  Proof. intros I. unfold turn. destruct (exceptions (k_tasks k)) as [|e es] eqn:E; cbn [some_exception].
    - assert (M0 : micro g (mst k) (k_state k, pending (k_tasks k), k_log k)) by (apply m_drop; auto).
      assert (EP : forall ts, exceptions (pending ts) = []). { induction ts as [|[sx [| |x]] ts IHt]; cbn; auto. }
      destruct (loop_condition (k_state k)).
      + destruct (fill _ g (k_state k) (pending (k_tasks k)) (k_log k)) as [[[s' t'] l'] e'] eqn:F.
        destruct (fun L => fill_ok _ _ _ _ _ _ _ _ L (micro_inv _ _ _ _ _ GC _ _ I M0) F) as (-> & M & H).
        { unfold fill_fuel, measure. lia. }
        split; [reflexivity|]. split; [|split].
        * eapply micros_trans; [apply micros_one; exact M0|exact M].
        * cbn [k_tasks]. eapply fill_exceptions; [exact F|apply EP].
        * cbn [k_phase k_state]. auto.
      + split; [reflexivity|]. split; [apply micros_one; exact M0|]. split; [cbn; apply EP|]. cbn. auto.
    - split; [reflexivity|]. exists (nth (pick mod length (e :: es)) (e :: es) e). split; [|split; reflexivity].
      apply nth_In. apply Nat.mod_upper_bound. discriminate. Qed.

  Lemma finish_ok k i sx r : inv (mst k) -> fresh_result cs r -> nth_error (k_tasks k) i = Some (mk_task sx Pending) ->
    micro g (mst k) (mst (finish_task g k i sx r)) /\ k_phase (finish_task g k i sx r) = k_phase k /\ k_file (finish_task g k i sx r) = k_file k /\
    k_tasks (finish_task g k i sx r) = set_status i Completed (k_tasks k).
  Proof. intros I Hr E. unfold finish_task, process_result.
    pose proof (fresh_pos g _ Hr) as Hp. pose proof (i_hist _ _ _ _ _ _ I) as HH. cbn [mst fst snd] in HH.
    destruct (hist_add_result (gc_box g GC) HH _ Hp) as (c & Ea & _). rewrite Ea.
    assert (Hh : history cs (g_gap g) (g_cutoff g) ((rs0 ++ map snd (recorded (k_log k))) ++ [r]) (ps0 ++ refined (k_log k)) c) by (eapply hist_add; eauto).
    assert (Ecs : c_cs c = cs). { destruct (hist_classification (gc_box g GC) Hh) as (_ & _ & _ & X & _). exact X. }
    assert (Hp' : is_pos cs (normalize_position (c_cs c) (pos_of r))). { rewrite Ecs. apply (norm_is_pos g); auto. }
    destruct (hist_check_pos (gc_box g GC) Hh 0 Hp' (gc_lookup g GC)) as (d & Ed & _).
    assert (SF : exists q, set_finished (st_simplex (k_state k)) sx = Ok q).
    { unfold set_finished. rewrite (proj2 (mem_spec sx (q_running (st_simplex (k_state k))))); eauto.
      eapply Permutation_in; [apply (i_tasks _ _ _ _ _ _ I)|]. eapply in_open_pending; eauto. }
    destruct SF as (q & SF).
    set (sn := match g_stencil g with Some _ => true | None => false end).
    assert (M := m_record g (k_state k) (k_tasks k) (k_log k) i r sx c (is_node (g_gap g) r) (sn && d) q E Hr Ea).
    assert (A1 : is_node (g_gap g) r = true -> g_stencil g <> None -> check_pos_refinement c (g_cutoff g) 0 (normalize_position (c_cs c) (pos_of r)) = Ok (sn && d)).
    { intros _ X. unfold sn. destruct (g_stencil g); [auto|congruence]. }
    assert (A2 : g_stencil g = None -> sn && d = false) by (intros X; unfold sn; rewrite X; auto).
    specialize (M A1 A2 SF). unfold after_result in M.
    destruct (is_node (g_gap g) r) eqn:N; cbn [andb].
    - fold sn. destruct sn; cbn [andb] in *.
      + cbn [st_result with_result]. rewrite Ed. destruct d.
        * cbn [st_simplex with_result with_position]. rewrite SF. repeat split. exact M.
        * cbn [st_simplex with_result]. rewrite SF. repeat split. exact M.
      + cbn [st_simplex with_result]. rewrite SF. repeat split. exact M.
    - cbn [st_simplex with_result]. rewrite SF. repeat split. exact M. Qed.

  (** ** All events *)
  Definition micros_or_saved (k k' : ctrl) : Prop :=
    (micros (mst k) (mst k') /\ k_file k' = k_file k) \/
    (exists order, (forall l, Permutation (order l) l) /\ mst k' = (clear_needs_saving (k_state k), k_tasks k, k_log k) /\ k_file k' = Some (enc_state order (k_state k))).

  Lemma step_ok k ev k' : inv (mst k) -> valid_event cs ev -> step g k ev = Some k' -> micros_or_saved k k'.
  Proof. intros I V S. destruct ev as [pick|i r|i e|order| |pick]; cbn [step] in S.
    - destruct (k_phase k) eqn:Ph; try discriminate. injection S as <-. left.
      destruct (turn_ok k pick I) as (F & H). split; auto. destruct (exceptions (k_tasks k)).
      + apply H.
      + destruct H as (e0 & _ & _ & H). rewrite H. constructor.
    - destruct (nth_error (k_tasks k) i) as [[sx [| |e]]|] eqn:E; try discriminate. injection S as <-. left.
      destruct (finish_ok k i sx r I V E) as (M & _ & F & _). split; auto. apply micros_one. auto.
    - destruct (nth_error (k_tasks k) i) as [[sx [| |e']]|] eqn:E; try discriminate. injection S as <-. left. split; auto.
      apply micros_one. eapply m_fail; eauto.
    - destruct (needs_saving (k_state k)) eqn:N; injection S as <-.
      + right. exists order. split; auto.
      + left. split; auto. constructor.
    - injection S as <-. left. split; auto. constructor.
    - destruct (k_phase k); try discriminate. destruct (pending (k_tasks k)); [|discriminate]. injection S as <-. left. split; auto. constructor. Qed.

  Lemma step_inv k ev k' : inv (mst k) -> valid_event cs ev -> step g k ev = Some k' -> inv (mst k').
  Proof. intros I V S. destruct (step_ok _ _ _ I V S) as [[M _]|(order & _ & M & _)].
    - eapply micros_inv; eauto.
    - rewrite M. apply saved_inv. auto. Qed.

  Lemma start_inv s file : good_start g s rs0 ps0 Q0 P0 -> inv (mst (start s file)).
  Proof. intros [HH (Q1 & Q2 & Q3 & Q4 & Q5) (P1 & P2 & P3 & P4 & P5) V HP HN HU].
    assert (R : forall l, l = [] -> refinements g l = []) by (intros ? ->; unfold refinements; destruct (g_stencil g); auto).
    constructor; cbn [mst start k_state k_tasks k_log fst snd]; rewrite ?R, ?app_nil_r by auto; cbn [recorded refined flat_map map]; rewrite ?app_nil_r; auto.
    - constructor; cbn; auto.
      + rewrite Q1. rewrite first_occ_filter by auto. symmetry. clear. induction Q0; cbn; [auto|]. f_equal; auto.
      + rewrite Q2. constructor.
    - rewrite Q2. constructor.
    - unfold num_running. rewrite Q2. cbn. lia.
    - rewrite P1. auto.
    - intros p. cbn. rewrite P1, P5. tauto.
    - rewrite P1. auto.
    - rewrite P1. auto. Qed.

  (** Induction over the events of a run. *)
  Lemma reach_ind (Pk : ctrl -> Prop) s file : good_start g s rs0 ps0 Q0 P0 -> Pk (start s file) ->
    (forall k ev k', inv (mst k) -> Pk k -> valid_event cs ev -> step g k ev = Some k' -> Pk k') ->
    forall k, reaches g s file k -> inv (mst k) /\ Pk k.
  Proof. intros GS P0' ST k (evs & V & R). pose proof (start_inv s file GS) as I0. revert P0' I0 R. generalize (start s file) as k0.
    induction V as [|ev evs Hv V IH]; cbn [run_events]; intros k0 HP I R; [injection R as <-; auto|].
    destruct (step g k0 ev) as [k1|] eqn:E; [|discriminate]. apply (IH k1); eauto using step_inv. Qed.
End Steps.
