(** Searches whose results come from minimizations of an actual potential. *)
From Coq Require Import String.
From Verif Require Import Base BaseFacts CoordSys SpecGeom CoordSysFacts CellList Values Container SpecContainer ContainerFacts ContainerHist
  Queue QueueFacts SpecQueue Hdf5 SpecHdf5 NelderMead SpecMin NelderMeadFacts NelderMeadProps NelderMeadExtra
  Controller SpecSearch SpecRun ControllerFacts ControllerSteps SearchFacts SearchProps SearchRestart.
Open Scope list_scope.
Open Scope Qc_scope.

Lemma vadd_zeros n : forall x, List.length x = n -> vadd x (repeat 0 n) = x.
Proof. induction n as [|n IH]; intros [|a x] L; try discriminate; cbn; auto. injection L as L. f_equal; [ring|apply IH; auto]. Qed.

(** an exception of a minimization was raised by the function at a point of the
    right dimension *)
Lemma root_err_len argsort func n p initial e : argsort_ok argsort -> is_simplex n initial ->
  root_nelder_mead argsort func p initial = Err e -> exists k x, List.length x = n /\ func k x = Err e.
Proof. intros Hs Hi E. pose (func' := fun (k : nat) (x : point) => if (List.length x =? n)%nat then func k x else Ok NaN).
  pose proof (run_translate argsort func func' n (repeat 0 n) p initial Hs (repeat_length _ _) Hi) as T. rewrite E in T.
  assert (M : map (fun x => vadd x (repeat 0 n)) initial = initial).
  { rewrite <- (map_id initial) at 2. apply map_ext_in. intros x Hx. apply vadd_zeros. destruct Hi as (_ & _ & F). rewrite Forall_forall in F. auto. }
  rewrite M in T. destruct (root_err argsort Hs func' n p initial e Hi) as (k & x & H).
  - apply T. intros k x L. rewrite vadd_zeros by auto. unfold func'. rewrite L, Nat.eqb_refl. reflexivity.
  - unfold func' in H. destruct (List.length x =? n)%nat eqn:L; [|discriminate]. apply Nat.eqb_eq in L. eauto. Qed.

Lemma run_pos_length argsort func p n initial r w : argsort_ok argsort -> is_simplex n initial ->
  root_nelder_mead argsort func p initial = Ok (r, w) -> List.length (r_pos r) = n.
Proof. intros Hs Hi E. destruct (run_final _ _ _ _ _ Hs Hi _ _ E) as (sim & fsim & h & _ & Si & _ & _ & Hp & _). rewrite <- Hp.
  destruct Si as (_ & L & F). rewrite Forall_forall in F. apply F. apply hd_in. destruct sim; [discriminate|congruence]. Qed.

Section Genuine.
  Variables (g : config) (p : nm_params) (evals : point -> fval -> Prop) (raises : point -> exn -> Prop).
  Let n := List.length (limits (g_cs g)).
  Hypothesis GC : good_config g.

  Lemma minimized_ok x r : is_simplex n x -> minimized g p evals raises x (Ok r) ->
    fresh_result (g_cs g) r /\ ((forall y v, evals y v -> v <> NaN) -> evals (pos_of r) (value_of r)).
  Proof. intros Hx (argsort & func & fake & Hs & He & _ & _ & ow & w & E). destruct fake as [fk|].
    - destruct (two_step argsort func fk p n x Hs Hx r ow w E) as (r1 & w1 & r2 & sim & h & _ & -> & _ & _ & Si & _ & E2).
      split; [split; auto; eapply run_pos_length; eauto|]. intros N. cbn.
      destruct (run_log _ _ _ _ _ Hs Si _ _ E2) as [_ L].
      assert (L' : forall y v, In (y, v) (w_log w) -> evals y v). { intros y v H. apply In_nth_error in H as (i & H). apply L in H. unfold later in H. eauto. }
      destruct (run_best _ _ _ _ _ Hs Si _ _ E2) as [B _]; auto. apply Forall_forall. intros [y v] H. cbn. eauto.
    - unfold run_minimization in E. destruct (root_nelder_mead argsort func p x) as [[r1 w1]|] eqn:E1; cbn [bind fst snd] in E; [|discriminate].
      injection E as <- <- <-. split; [eapply run_pos_length; eauto|]. intros N. cbn.
      destruct (run_log _ _ _ _ _ Hs Hx _ _ E1) as [_ L].
      assert (L' : forall y v, In (y, v) (w_log w1) -> evals y v). { intros y v H. apply In_nth_error in H as (i & H). apply L in H. eauto. }
      destruct (run_best _ _ _ _ _ Hs Hx _ _ E1) as [B _]; auto. apply Forall_forall. intros [y v] H. cbn. eauto. Qed.

  Lemma minimized_err x e : is_simplex n x -> minimized g p evals raises x (Err e) -> exists y, raises y e.
  Proof. intros Hx (argsort & func & fake & Hs & _ & Hr & Hf & E). destruct fake as [fk|].
    - unfold run_minimization in E.
      destruct (root_nelder_mead argsort (add_fake_potential fk func) _ _) as [[r1 w1]|e1] eqn:E1; cbn [bind] in E.
      + destruct (run_final _ _ _ _ _ Hs Hx _ _ E1) as (sim & fsim & h & Hh & Si & _ & _ & Hp & _).
        rewrite Hh, rev_app_distr in E. cbn [rev app] in E.
        destruct (root_nelder_mead argsort (later func (w_calls w1)) p (blow_up sim)) as [[r2 w2]|e2] eqn:E2; cbn [bind] in E; [discriminate|].
        injection E as <-. apply (root_err _ Hs _ n) in E2 as (k & y & Hk); [|apply blow_up_simplex; auto]. unfold later in Hk. eauto.
      + injection E as <-. destruct (root_err_len _ _ n _ _ _ Hs Hx E1) as (k & y & L & Hk).
        unfold add_fake_potential in Hk. destruct (func k y) as [v|] eqn:Fv; cbn in Hk; [|injection Hk as ->; eauto].
        destruct (Hf fk eq_refl k y L) as (c & rs & ps & Hh & Ef).
        rewrite (hist_fake (gc_box g GC) Hh L (gc_lookup g GC) (width := g_cutoff g) (Qcle_refl _)) in Ef. rewrite Ef in Hk. discriminate.
    - unfold run_minimization in E. destruct (root_nelder_mead argsort func p x) as [[r1 w1]|e1] eqn:E1; cbn [bind] in E; [discriminate|]. injection E as <-.
      apply (root_err _ Hs _ n) in E1 as (k & y & Hk); auto. eauto. Qed.

  Variables (rs : list result) (ps : list point) (Q : list simplex) (P : list point).
  Variables (s : controller_state) (file : option tree).
  Hypothesis GS : good_start g s rs ps Q P.
  Hypothesis PS : proper_simplices g Q.

  Lemma proper_known k : reaches g s file k -> forall x, In x (Q ++ refinements g (k_log k)) -> is_simplex n x.
  Proof. intros R x Hx. destruct PS as [PQ PSt]. rewrite Forall_forall in PQ. apply in_app_iff in Hx as [Hx|Hx]; auto.
    unfold refinements in Hx. destruct (g_stencil g) as [st|] eqn:E; [|destruct Hx]. apply in_flat_map in Hx as (q & Hq & Hx).
    apply in_map_iff in Hx as (y & <- & Hy). apply in_map_iff in Hy as (z & <- & Hz). specialize (PSt st eq_refl). rewrite Forall_forall in PSt. specialize (PSt z Hz).
    pose proof (refined_pos g rs ps Q P s file k GC GS R) as RP. rewrite Forall_forall in RP. specialize (RP q Hq).
    eapply is_simplex_perm; [apply Permutation_sym, norm_simplex_perm|]. destruct PSt as (A & B & C). split; auto. split; [rewrite map_length; auto|].
    rewrite Forall_forall in *. intros v Hv. apply in_map_iff in Hv as (u & <- & Hu). unfold vadd. rewrite map2_length; [apply RP|]. rewrite (C u Hu). apply RP. Qed.

  Lemma task_known k i x : reaches g s file k -> nth_error (k_tasks k) i = Some (mk_task x Pending) -> is_simplex n x.
  Proof. intros R E. apply (proper_known k R). apply (scheduled_set g rs ps Q P s file k GC GS R). right. left.
    unfold in_flight. apply in_map_iff. exists (mk_task x Pending). split; auto. apply filter_In. split; auto. eapply nth_error_In; eauto. Qed.

  Lemma reaches_step k ev k' : reaches g s file k -> valid_event (g_cs g) ev -> step g k ev = Some k' -> reaches g s file k'.
  Proof. intros (evs & V & R) Hv St. exists (evs ++ [ev]). split; [apply Forall_app; auto|]. revert R. generalize (start s file) as k0.
    induction evs as [|e evs IH]; cbn; intros k0 R; [injection R as ->; rewrite St; auto|]. inversion V; subst. destruct (step g k0 e); [auto|discriminate]. Qed.

  Lemma recorded_step k ev k' : reaches g s file k -> valid_event (g_cs g) ev -> step g k ev = Some k' ->
    forall x r, In (x, r) (recorded (k_log k')) -> In (x, r) (recorded (k_log k)) \/ exists i, ev = EDone i r /\ nth_error (k_tasks k) i = Some (mk_task x Pending).
  Proof. intros R V St x r Hr. pose proof (proj1 (reach_kinv g rs ps Q P GC s file k GS R)) as I.
    assert (NT : forall m m', micros g m m' -> (forall i y, nth_error (snd (fst m)) i = Some (mk_task y Completed) -> True) -> True) by auto. clear NT.
    destruct ev as [pick|i r0|i e|order| |pick]; cbn [step] in St.
    - left. destruct (k_phase k); try discriminate. injection St as <-. unfold turn in Hr. destruct (some_exception _ _); [exact Hr|].
      destruct (loop_condition _); [|exact Hr].
      assert (RL : forall qs s0 l0 s1 l1 e, refine_loop g qs s0 l0 = (s1, l1, e) -> recorded l1 = recorded l0).
      { clear. induction qs as [|q qs IH]; intros s0 l0 s1 l1 e; cbn [refine_loop]; destruct (has_queued _); intros H; try (injection H as <- <- <-; reflexivity).
        destruct (pop_object _) as [[pq pos]|]; [|injection H as <- <- <-; reflexivity].
        destruct (if g_recheck g then _ else _) as [[|]|]; [| |injection H as <- <- <-; reflexivity].
        - destruct (g_stencil g); [|injection H as <- <- <-; reflexivity]. destruct (set_refined _ _); [|injection H as <- <- <-; reflexivity].
          apply IH in H. rewrite H. unfold recorded. rewrite flat_map_app. cbn. apply app_nil_r.
        - apply IH in H. rewrite H. unfold recorded. rewrite flat_map_app. cbn. apply app_nil_r. }
      assert (FL : forall f s0 t0 l0 s1 t1 l1 e, fill f g s0 t0 l0 = (s1, t1, l1, e) -> recorded l1 = recorded l0).
      { clear -RL. induction f as [|f IH]; intros s0 t0 l0 s1 t1 l1 e; cbn [fill]; destruct (_ <? _)%nat; intros H; try (injection H as <- <- <- <-; reflexivity).
        destruct (refine_loop _ _ _ _) as [[s2 l2] [e2|]] eqn:E; apply RL in E; [injection H as <- <- <- <-; exact E|].
        destruct (has_queued _); [|injection H as <- <- <- <-; exact E]. destruct (pop_running _) as [[q sx]|]; [|injection H as <- <- <- <-; exact E].
        destruct (check_simplex _ _ _ _) as [[|]|]; [| |injection H as <- <- <- <-; exact E].
        - apply IH in H. rewrite H, <- E. unfold recorded. rewrite flat_map_app. cbn. apply app_nil_r.
        - destruct (set_finished _ _); [|injection H as <- <- <- <-; exact E]. apply IH in H. rewrite H, <- E. unfold recorded. rewrite flat_map_app. cbn. apply app_nil_r. }
      destruct (fill _ _ _ _ _) as [[[s1 t1] l1] e1] eqn:Ef. cbn [k_log] in Hr. rewrite (FL _ _ _ _ _ _ _ _ Ef) in Hr. exact Hr.
    - destruct (nth_error (k_tasks k) i) as [[sx [| |e]]|] eqn:E; try discriminate. injection St as <-.
      assert (Lg : In (x, r) (recorded (k_log k)) \/ (x, r) = (sx, r0)).
      { assert (PL : forall s1 l1 e, process_result g (k_state k) (k_log k) sx r0 = (s1, l1, e) -> In (x, r) (recorded l1) -> In (x, r) (recorded (k_log k)) \/ (x, r) = (sx, r0)).
        { intros s1 l1 e. unfold process_result. destruct (add_result _ _) as [[c b]|]; [|intros H; injection H as <- <- <-; auto].
          assert (A1 : forall l, In (x, r) (recorded (l ++ [ARecord sx r0])) -> In (x, r) (recorded l) \/ (x, r) = (sx, r0)).
          { intros l H. unfold recorded in H. rewrite flat_map_app in H. apply in_app_iff in H as [H|H]; auto. cbn in H. destruct H as [H|[]]; auto. }
          destruct (_ && _)%bool; [|intros H; injection H as <- <- <-; auto].
          destruct (check_pos_refinement _ _ _ _) as [[|]|]; intros H; injection H as <- <- <-; auto.
          intros H. apply A1. unfold recorded in *. rewrite flat_map_app in H. apply in_app_iff in H as [H|[]]; auto. }
        unfold finish_task in Hr. destruct (process_result _ _ _ _ _) as [[s1 l1] [e1|]] eqn:Ep; [apply (PL _ _ _ eq_refl); exact Hr|].
        destruct (set_finished _ _); apply (PL _ _ _ eq_refl); exact Hr. }
      destruct Lg as [Lg|Lg]; auto. injection Lg as -> ->. right. exists i. auto.
    - left. destruct (nth_error (k_tasks k) i) as [[sx [| |e']]|]; try discriminate. injection St as <-. exact Hr.
    - left. destruct (needs_saving _); injection St as <-; exact Hr.
    - left. injection St as <-. exact Hr.
    - left. destruct (k_phase k); try discriminate. destruct (pending _); [|discriminate]. injection St as <-. exact Hr. Qed.

  Lemma search_facts k : search g p evals raises s file k -> reaches g s file k /\
    (forall x r, In (x, r) (recorded (k_log k)) -> is_simplex n x /\ minimized g p evals raises x (Ok r)) /\
    (forall e, In e (exceptions (k_tasks k)) -> exists y, raises y e).
  Proof. induction 1 as [|k ev k' Sr (R & Hrec & Hex) Ho St].
    - split; [exists []; auto|]. split; [intros ? ? []|intros ? []].
    - assert (V : valid_event (g_cs g) ev).
      { destruct ev as [pick|i r|i e|order| |pick]; cbn in *; auto. destruct (nth_error (k_tasks k) i) as [[x [| |e]]|] eqn:E; try discriminate.
        apply (minimized_ok x r); auto. eapply task_known; eauto. }
      split; [eapply reaches_step; eauto|]. split.
      + intros x r Hr. destruct (recorded_step _ _ _ R V St x r Hr) as [H|(i & -> & E)]; auto. split; [eapply task_known; eauto|]. cbn in Ho. auto.
      + intros e He. pose proof (proj1 (reach_kinv g rs ps Q P GC s file k GS R)) as I.
        destruct (step_exceptions g rs ps Q P GC _ _ _ I V St) as (_ & B & _). destruct (B e He) as [H|(i & ->)]; auto.
        cbn in Ho, St. destruct (nth_error (k_tasks k) i) as [[x [| |e']]|] eqn:E; try discriminate. apply (minimized_err x e); auto. eapply task_known; eauto. Qed.

  (** C37 *)
  Lemma genuine_nodes k : search g p evals raises s file k -> (forall y v, evals y v -> v <> NaN) -> g_gap g <> NaN ->
    forall r, In r (cl_flat (c_nodes (st_result (k_state k)))) -> In r (nodes_of g rs) \/
      success_of r = true /\ fle (value_of r) (g_gap g) = true /\
      exists y, evals y (value_of r) /\ pos_of r = normalize_position (g_cs g) y /\ is_pos (g_cs g) y.
  Proof. intros S N Ng r Hr. destruct (search_facts k S) as (R & Hrec & _). destruct (results g rs ps Q P s file k GC GS R) as (E & _). rewrite E, nodes_of_app in Hr.
    apply in_app_iff in Hr as [Hr|Hr]; [auto|right]. apply filter_In in Hr as [Hr Hn]. apply in_map_iff in Hr as (r0 & <- & Hr). apply in_map_iff in Hr as ([x r1] & Er & Hr). cbn in Er. subst r1.
    destruct (Hrec x r0 Hr) as (Hx & M). destruct (minimized_ok x r0 Hx M) as (Fr & Ev). specialize (Ev N).
    unfold is_node in Hn. apply andb_true_iff in Hn as [Hs Hv]. apply negb_true_iff in Hv. unfold fgt in Hv. split; auto.
    assert (Vr : value_of (stored (g_cs g) r0) = value_of r0) by (unfold stored; apply value_set_pos). rewrite Vr in *.
    split; [apply not_flt; auto; eapply N; eauto|]. exists (pos_of r0). split; auto. split; [unfold stored; apply pos_of_set_pos|]. apply (fresh_pos g); auto. Qed.

  Lemma genuine_exception k e : search g p evals raises s file k -> k_phase k = Raised e -> exists y, raises y e.
  Proof. intros S Ph. destruct (search_facts k S) as (R & _ & Hex). apply Hex. eapply raised_exception; eauto. Qed.
End Genuine.
