(** Facts about whole searches, from the elementary steps. *)
From Coq Require Import String.
From Verif Require Import Base BaseFacts CoordSys SpecGeom CoordSysFacts CellList Values Container SpecContainer ContainerFacts ContainerHist
  Queue QueueFacts SpecQueue Hdf5 SpecHdf5 Controller SpecSearch ControllerFacts ControllerSteps.
Open Scope list_scope.
Open Scope Qc_scope.

(** ** Properties of logs *)
Definition logged (D : list action -> action -> Prop) (log : list action) : Prop :=
  forall l1 a l2, log = l1 ++ a :: l2 -> D l1 a.
Lemma logged_nil D : logged D [].
Proof. intros [|? ?] ? ? E; discriminate. Qed.
Lemma logged_snoc D log a : logged D log -> D log a -> logged D (log ++ [a]).
Proof. intros L Da l1 b l2 E. destruct (exists_last (l := b :: l2)) as (m & c & Em); [discriminate|].
  rewrite Em, app_assoc in E. apply app_inj_tail in E as [E ->]. destruct m as [|b' m].
  - rewrite app_nil_r in E. subst l1. injection Em as ->. auto.
  - injection Em as -> _. eapply L. eauto. Qed.

Lemma popped_perm l : Permutation (popped l) (started l ++ discarded l).
Proof. induction l as [|a l IH]; [constructor|]. destruct a; cbn; auto. rewrite IH. apply Permutation_middle. Qed.
Lemma ended_perm l : Permutation (ended l) (map fst (recorded l) ++ discarded l).
Proof. induction l as [|a l IH]; [constructor|]. destruct a; cbn; auto. rewrite IH. apply Permutation_middle. Qed.
Lemma nodup_app_l {A} (l m : list A) : NoDup (l ++ m) -> NoDup l.
Proof. induction l as [|a l IH]; cbn; intros N; [constructor|]. inversion N; subst. constructor; auto. rewrite in_app_iff in *. tauto. Qed.
Lemma nodup_app_disj {A} (l m : list A) x : NoDup (l ++ m) -> In x l -> In x m -> False.
Proof. induction l as [|a l IH]; cbn; intros N H H'; [auto|]. inversion N; subst. destruct H as [<- |H]; [|eauto]. rewrite in_app_iff in *. tauto. Qed.

Lemma node_near_mono cs w nodes nodes' p : incl nodes nodes' -> node_near cs w nodes p = true -> node_near cs w nodes' p = true.
Proof. unfold node_near. rewrite !existsb_exists. intros H (r & Hr & E). exists r. auto. Qed.
Lemma count_mono {A} (f f' : A -> bool) l : (forall x, f x = true -> f' x = true) -> (count f l <= count f' l)%nat.
Proof. intros H. unfold count. induction l as [|a l IH]; cbn; auto. specialize (H a). destruct (f a), (f' a); cbn; try lia; exfalso; specialize (H eq_refl); discriminate. Qed.
Lemma nodes_of_app g rs rs' : nodes_of g (rs ++ rs') = nodes_of g rs ++ nodes_of g rs'.
Proof. unfold nodes_of. rewrite map_app, filter_app. reflexivity. Qed.

Lemma recheck_zero c ds k : recheck_loop c 0 0 ds = true -> recheck_loop c k 0 ds = true.
Proof. induction ds as [|d ds IH]; cbn [recheck_loop]; auto. destruct (sq_lt d c); cbn.
  - discriminate.
  - destruct k; cbn; auto. Qed.

Section Facts.
  Variables (g : config) (rs0 : list result) (ps0 : list point) (Q0 : list simplex) (P0 : list point).
  Hypothesis GC : good_config g.
  Let cs := g_cs g.
  Notation inv := (inv g rs0 ps0 Q0 P0).

  Definition nodes_at (l : list action) : list result := nodes_of g (rs0 ++ map snd (recorded l)).
  Definition refined_at (l : list action) : list point := ps0 ++ refined l.

  (** why each action was taken, given what had happened before *)
  Definition decided (l : list action) (a : action) : Prop :=
    match a with
    | AStart s => (count (node_near cs (g_cutoff g) (nodes_at l)) s <= g_simplex_cutoff g)%nat
    | ADiscard s => (g_simplex_cutoff g < count (node_near cs (g_cutoff g) (nodes_at l)) s)%nat
    | ARecord s r => In s (started l) /\ fresh_result cs r
    | ARefine p => is_pos cs p /\ (g_recheck g = true -> (count (fun q => dist_lt cs p q (g_cutoff g)) (refined_at l) <= g_count_cutoff g)%nat)
    | ASkip p => g_recheck g = true /\ (exists q, In q (refined_at l) /\ dist_lt cs p q (g_cutoff g) = true) /\
        (lookup_unique cs (g_cutoff g) -> (g_count_cutoff g < count (fun q => dist_lt cs p q (g_cutoff g)) (refined_at l))%nat)
    | AQueue p => exists l' s r, l = l' ++ [ARecord s r] /\ is_node (g_gap g) r = true /\ p = normalize_position cs (pos_of r) /\
        forall q, In q (refined_at l') -> dist_lt cs p q (g_cutoff g) = false
    end.

  Lemma running_started x sx : inv x -> In sx (q_running (st_simplex (fst (fst x)))) -> In sx (started (snd x)).
  Proof. intros I H. pose proof (q_inv_running_nodup (i_q _ _ _ _ _ _ I)) as N.
    assert (P : In sx (popped (snd x))). { eapply Permutation_in; [apply (qi_run (i_q _ _ _ _ _ _ I))|]. apply in_app_iff. auto. }
    apply (Permutation_in _ (popped_perm _)) in P. apply in_app_iff in P as [P|P]; auto.
    exfalso. eapply nodup_app_disj; [exact N|exact H|]. eapply Permutation_in; [symmetry; apply ended_perm|]. apply in_app_iff. auto. Qed.

  Lemma inv_simplex_rule x sx b : inv x -> In sx (Q0 ++ refinements g (snd x)) ->
    check_simplex (st_result (fst (fst x))) (g_cutoff g) (g_simplex_cutoff g) sx = Ok b ->
    b = (count (node_near cs (g_cutoff g) (nodes_at (snd x))) sx <=? g_simplex_cutoff g)%nat.
  Proof. intros I H E. pose proof (i_verts _ _ _ _ _ _ I) as V. rewrite Forall_forall in V.
    pose proof (hist_check_simplex (gc_box g GC) (i_hist _ _ _ _ _ _ I) (g_simplex_cutoff g) (V _ H) (gc_lookup g GC)) as E'.
    rewrite E in E'. injection E' as ->. reflexivity. Qed.

  Lemma check_pos_near x k p : inv x -> is_pos cs p -> check_pos_refinement (st_result (fst (fst x))) (g_cutoff g) k p = Ok false ->
    exists q, In q (refined_at (snd x)) /\ dist_lt cs p q (g_cutoff g) = true.
  Proof. intros I Hp E. destruct (hist_check_pos (gc_box g GC) (i_hist _ _ _ _ _ _ I) 0 Hp (gc_lookup g GC)) as (b & Eb & _ & _ & H0).
    unfold check_pos_refinement in *. destruct (refined_distances_sq (st_result (fst (fst x))) p) as [ds|]; [|discriminate]. cbn [bind] in *.
    injection E as E. injection Eb as Eb. destruct (recheck_loop (g_cutoff g) 0 0 ds) eqn:R; [apply (recheck_zero _ _ k) in R; congruence|].
    subst b. specialize (H0 eq_refl). symmetry in H0. apply negb_false_iff, existsb_exists in H0. exact H0. Qed.

  Lemma queued_known x sx : inv x -> In sx (q_queued (st_simplex (fst (fst x)))) -> In sx (Q0 ++ refinements g (snd x)).
  Proof. intros I H. pose proof (qi_order (i_q _ _ _ _ _ _ I)) as O. apply (proj1 (first_occ_in [] _ sx)). rewrite <- O. apply in_app_iff. auto. Qed.

  Lemma micro_decided x y : inv x -> micro g x y -> logged decided (snd x) -> logged decided (snd y).
  Proof. intros I M L. inversion M; subst; cbn [fst snd] in *; auto.
    - destruct (pop_object_inv _ _ _ H0) as (E1 & _). pose proof (i_pos _ _ _ _ _ _ I) as F. cbn [fst] in F. rewrite E1 in F. inversion F as [|? ? Hp _]; subst.
      apply logged_snoc; auto. split; auto. split; [eapply (check_pos_near _ _ _ I); eauto|]. intros U.
      destruct (hist_check_pos (gc_box g GC) (i_hist _ _ _ _ _ _ I) (g_count_cutoff g) Hp (gc_lookup g GC)) as (b & Eb & _ & H3 & _).
      cbn [fst snd] in *. rewrite Eb in H2. injection H2 as ->. specialize (H3 U). symmetry in H3. apply Nat.leb_gt in H3. exact H3.
    - destruct (pop_object_inv _ _ _ H0) as (E1 & _). pose proof (i_pos _ _ _ _ _ _ I) as F. cbn [fst] in F. rewrite E1 in F. inversion F as [|? ? Hp _]; subst.
      apply logged_snoc; auto. split; auto. intros G. specialize (H1 G).
      destruct (hist_check_pos (gc_box g GC) (i_hist _ _ _ _ _ _ I) (g_count_cutoff g) Hp (gc_lookup g GC)) as (b & Eb & H5 & _).
      cbn [fst snd] in *. rewrite Eb in H1. injection H1 as ->. auto.
    - apply logged_snoc; auto. destruct (pop_running_inv _ _ _ H0) as (E1 & _). cbn.
      pose proof (inv_simplex_rule _ sx true I) as R. cbn [fst snd] in R. apply Nat.leb_le. symmetry. apply R; auto.
      apply (queued_known _ _ I). cbn. rewrite E1. left. auto.
    - apply logged_snoc; auto. destruct (pop_running_inv _ _ _ H0) as (E1 & _). cbn.
      pose proof (inv_simplex_rule _ sx false I) as R. cbn [fst snd] in R. apply Nat.leb_gt. symmetry. apply R; auto.
      apply (queued_known _ _ I). cbn. rewrite E1. left. auto.
    - assert (Hs : In sx (started log)). { apply (running_started _ _ I). cbn. eapply Permutation_in; [apply (i_tasks _ _ _ _ _ _ I)|]. cbn. eapply in_open_pending; eauto. }
      unfold after_result. destruct (b && d)%bool eqn:BD; cbn [snd].
      + apply andb_true_iff in BD as [-> ->].
        assert (Hh : history cs (g_gap g) (g_cutoff g) ((rs0 ++ map snd (recorded log)) ++ [r]) (ps0 ++ refined log) c) by (eapply hist_add; [apply (i_hist _ _ _ _ _ _ I)|apply (fresh_pos g); auto|exact H1]).
        assert (Ecs : c_cs c = cs). { destruct (hist_classification (gc_box g GC) Hh) as (_ & _ & _ & X & _). exact X. }
        apply logged_snoc; [apply logged_snoc; auto; split; auto|]. exists log, sx, r. split; auto.
        destruct (hist_add_result (gc_box g GC) (i_hist _ _ _ _ _ _ I) _ (fresh_pos g _ H0)) as (c' & Ea & _). cbn [fst snd] in Ea. rewrite H1 in Ea. injection Ea as <- Ea.
        split; auto. rewrite Ecs in *. split; auto. intros q0 Hq.
        assert (Hp' : is_pos cs (normalize_position cs (pos_of r))) by (apply (norm_is_pos g); apply (fresh_pos g); auto).
        destruct (hist_check_pos (gc_box g GC) Hh 0 Hp' (gc_lookup g GC)) as (d & Ed & _ & _ & Z).
        rewrite H2 in Ed; [|auto|intros N; apply H3 in N; discriminate]. injection Ed as <-. specialize (Z eq_refl). symmetry in Z. apply negb_true_iff in Z.
        destruct (dist_lt _ _ q0 _) eqn:Dl; auto. exfalso. assert (X : existsb (fun q => dist_lt cs (normalize_position cs (pos_of r)) q (g_cutoff g)) (ps0 ++ refined log) = true).
        { apply existsb_exists. exists q0. auto. } change (existsb (fun q => dist_lt cs (normalize_position cs (pos_of r)) q (g_cutoff g)) (ps0 ++ refined log) = false) in Z; rewrite X in Z; discriminate.
      + apply logged_snoc; auto. split; auto. Qed.

  (** every node found is scheduled for refinement or is already near a refined
      position *)
  Definition nodes_handled (x : mstate) : Prop := g_stencil g <> None ->
    forall s r, In (s, r) (recorded (snd x)) -> is_node (g_gap g) r = true ->
    In (normalize_position cs (pos_of r)) (to_refine (snd x)) \/
    exists q, In q (refined_at (snd x)) /\ dist_lt cs (normalize_position cs (pos_of r)) q (g_cutoff g) = true.

  Lemma refined_at_mono log a q : In q (refined_at log) -> In q (refined_at (log ++ [a])).
  Proof. unfold refined_at. proj. rewrite !in_app_iff. tauto. Qed.
  Lemma micro_handled x y : inv x -> micro g x y -> nodes_handled x -> nodes_handled y.
  Proof. intros I M L St s r Hr Hn.
    assert (Old : In (s, r) (recorded (snd x)) -> (forall p, In p (to_refine (snd x)) -> In p (to_refine (snd y))) -> (forall q, In q (refined_at (snd x)) -> In q (refined_at (snd y))) ->
      In (normalize_position cs (pos_of r)) (to_refine (snd y)) \/ exists q, In q (refined_at (snd y)) /\ dist_lt cs (normalize_position cs (pos_of r)) q (g_cutoff g) = true).
    { intros H A B. destruct (L St s r H Hn) as [X|(q & X & Y)]; [left; auto|right; exists q; auto]. }
    inversion M; subst; cbn [fst snd] in *; auto.
    1-4: apply Old; [proj; auto|intros p Hp; proj; auto|intros q9 Hq; apply refined_at_mono; auto].
    unfold after_result in *. pose proof (fresh_pos g _ H0) as Hp.
    assert (Hh : history cs (g_gap g) (g_cutoff g) ((rs0 ++ map snd (recorded log)) ++ [r0]) (ps0 ++ refined log) c) by (eapply hist_add; [apply (i_hist _ _ _ _ _ _ I)|apply (fresh_pos g); auto|exact H1]).
    assert (Ecs : c_cs c = cs). { destruct (hist_classification (gc_box g GC) Hh) as (_ & _ & _ & X & _). exact X. }
    destruct (hist_add_result (gc_box g GC) (i_hist _ _ _ _ _ _ I) _ Hp) as (c' & Ea & _). cbn [fst snd] in Ea. rewrite H1 in Ea. injection Ea as <- Ea.
    assert (Hp' : is_pos cs (normalize_position cs (pos_of r0))) by (apply (norm_is_pos g); auto).
    destruct (hist_check_pos (gc_box g GC) Hh 0 Hp' (gc_lookup g GC)) as (d' & Ed & _ & _ & Z). specialize (Z eq_refl). rewrite Ecs in *.
    destruct (b && d)%bool eqn:BD; cbn [snd] in *; proj; unfold refined_at in *; proj; rewrite ?app_nil_r in *.
    - apply in_app_iff in Hr as [Hr|[Hr|[]]].
      + apply Old; auto. intros p X. apply in_app_iff. auto.
      + injection Hr as <- <-. left. apply in_app_iff. right. left. auto.
    - apply in_app_iff in Hr as [Hr|[Hr|[]]].
      + apply Old; auto.
      + injection Hr as <- <-. right. rewrite Hn in Ea. subst b. cbn in BD. subst d. specialize (H2 eq_refl St). rewrite H2 in Ed. injection Ed as <-.
        symmetry in Z. apply negb_false_iff, existsb_exists in Z. exact Z. Qed.

  (** ** Reachable states *)
  Definition kinv (k : ctrl) : Prop := logged decided (k_log k) /\ nodes_handled (mst k) /\
    match k_phase k with
    | Running => True
    | Draining | Returned => k_tasks k = [] /\ loop_condition (k_state k) = false
    | Raised e => In e (exceptions (k_tasks k))
    end.

  Lemma micros_kinv x y : inv x -> ControllerFacts.micros g x y -> logged decided (snd x) -> nodes_handled x -> logged decided (snd y) /\ nodes_handled y.
  Proof. intros I M. induction M; auto. intros. apply IHM; [eapply micro_inv; eauto|eapply micro_decided; eauto|eapply micro_handled; eauto]. Qed.

  Lemma exceptions_set_status i st tasks sx e : nth_error tasks i = Some (mk_task sx Pending) -> In e (exceptions tasks) -> In e (exceptions (set_status i st tasks)).
  Proof. revert i. induction tasks as [|t ts IH]; intros [|i] E H; cbn in *; try discriminate.
    - injection E as ->. cbn in H. apply in_app_iff. auto.
    - apply in_app_iff in H. apply in_app_iff. destruct H; eauto. Qed.

  Lemma loop_condition_open x : inv x -> loop_condition (fst (fst x)) = false ->
    q_queued (st_simplex (fst (fst x))) = [] /\ q_running (st_simplex (fst (fst x))) = [] /\ q_queued (st_position (fst (fst x))) = [] /\ open_simplices (snd (fst x)) = [].
  Proof. intros I E. unfold loop_condition, finished, objects in E. apply orb_false_iff in E as [E1 E2]. apply negb_false_iff in E1.
    destruct (q_running (st_simplex (fst (fst x)))) as [|a l] eqn:R; [|discriminate]. cbn in E1.
    destruct (q_queued (st_simplex (fst (fst x)))); [|discriminate]. unfold has_queued in E2. destruct (q_queued (st_position (fst (fst x)))); [|discriminate].
    repeat split; auto. pose proof (i_tasks _ _ _ _ _ _ I) as P. rewrite R in P. apply Permutation_sym, Permutation_nil in P. auto. Qed.
  Lemma open_none_pending tasks : open_simplices tasks = [] -> pending tasks = [].
  Proof. unfold open_simplices, pending. induction tasks as [|[sx [| |e]] ts IH]; cbn; try discriminate; auto. Qed.
  Lemma pending_nth tasks i sx : nth_error tasks i = Some (mk_task sx Pending) -> tasks <> [].
  Proof. destruct tasks, i; discriminate. Qed.

  Lemma step_kinv k ev k' : inv (mst k) -> kinv k -> valid_event cs ev -> step g k ev = Some k' -> kinv k'.
  Proof. intros I (KL & KN & KP) V S.
    assert (L : logged decided (k_log k') /\ nodes_handled (mst k')).
    { destruct (step_ok _ _ _ _ _ GC _ _ _ I V S) as [[M _]|(o & _ & M & _)].
      - change (k_log k') with (snd (mst k')). eapply micros_kinv; eauto.
      - split; [change (k_log k') with (snd (mst k')); rewrite M; auto|]. rewrite M. exact KN. }
    destruct L as [L1 L2]. split; auto. split; auto. clear L1 L2.
    destruct ev as [pick|i r|i e|order| |pick]; cbn [step] in S.
    - destruct (k_phase k) eqn:Ph; try discriminate. injection S as <-.
      destruct (turn_ok _ _ _ _ _ GC k pick I) as (F & H). destruct (exceptions (k_tasks k)) eqn:E.
      + destruct H as (_ & _ & H). destruct (loop_condition (k_state k)) eqn:LC; destruct H as (H1 & H2); rewrite H1; auto.
        destruct H2 as (H2 & H3 & H4). rewrite H2, H4. split; auto. apply open_none_pending. apply (loop_condition_open _ I LC).
      + destruct H as (e0 & H1 & H2 & H3). rewrite H2. pose proof (f_equal (fun x : mstate => snd (fst x)) H3) as H4. cbn in H4. rewrite H4, E. auto.
    - destruct (nth_error (k_tasks k) i) as [[sx [| |e]]|] eqn:E; try discriminate. injection S as <-.
      destruct (finish_ok _ _ _ _ _ GC k i sx r I V E) as (M & H1 & _ & H2). rewrite H1, H2.
      destruct (k_phase k); auto; try (destruct KP as [KP _]; apply pending_nth in E; contradiction). eapply exceptions_set_status; eauto.
    - destruct (nth_error (k_tasks k) i) as [[sx [| |e']]|] eqn:E; try discriminate. injection S as <-. cbn.
      destruct (k_phase k); auto; try (destruct KP as [KP _]; apply pending_nth in E; contradiction). eapply exceptions_set_status; eauto.
    - destruct (needs_saving (k_state k)); injection S as <-; auto. 
    - injection S as <-. auto.
    - destruct (k_phase k) eqn:Ph; try discriminate. destruct (pending (k_tasks k)); [|discriminate]. injection S as <-. cbn.
      destruct KP as [KP KC]. rewrite KP. cbn. auto. Qed.

  Lemma reach_kinv s file k : good_start g s rs0 ps0 Q0 P0 -> reaches g s file k -> inv (mst k) /\ kinv k.
  Proof. intros GS R. apply (reach_ind g rs0 ps0 Q0 P0 GC kinv s file); auto.
    - split; [apply logged_nil|]. split; [intros _ ? ? []|exact Logic.I].
    - intros. eapply step_kinv; eauto. Qed.
End Facts.
