(** Every event of the controller in double precision is a sequence of elementary steps; no event
    raises by itself. *)
From Verif Require Import Base BaseFacts CoordSys CellList Queue QueueFacts SpecQueue.
From Coq Require Import ZArith Reals.
From Flocq Require Import Core BinarySingleNaN.
From Verif Require Import Float FloatFacts FloatVector NelderMead FloatMin FloatCell SpecFloatCell FloatCellNum FloatCellFacts PropFloatCell FloatCheck PropFloatCheck FloatController SpecFloatSearch FloatSearchFacts.
Open Scope list_scope.

Section Steps.
  Variables (g : fconfig) (rs0 : list dmin_result) (ps0 : list fpoint) (Q0 : list fsimplex) (P0 : list fpoint).
  Hypothesis GC : good_fconfig g.
  Let boxes := fg_boxes g.
  Let per := fg_per g.
  Notation inv := (inv g rs0 ps0 Q0 P0).
  Notation micros := (micros g).

  Definition measure (s : fstate) : nat :=
    (length (q_queued (fs_simplex s)) + length (q_queued (fs_position s)) * fstencil_size g)%nat.

  Lemma inv_check_pos x k p : inv x -> refinable per boxes p -> exists b, fcheck_pos_refinement (fs_result (fst (fst x))) (fg_cutoff g) k p = Ok b.
  Proof. intros I Hp. pose proof (refined_coords per boxes p (gf_boxes g GC) (refinable_good g p (gf_boxes g GC) Hp)) as Gp.
    destruct (reliable_total per boxes (fg_gap g) (fg_cutoff g) _ _ _ p (i_hist _ _ _ _ _ _ I) Gp) as (ds & ds' & _ & E). unfold fcheck_pos_refinement. rewrite E. cbn [bind]. eauto. Qed.
  Lemma inv_set_refined x p : inv x -> refinable per boxes p -> exists c, fset_refined (fs_result (fst (fst x))) p = Ok c.
  Proof. intros I Hp. eapply rel_refined; eauto. Qed.
  Lemma inv_check_simplex x k vs : inv x -> Forall (good_position boxes) vs -> exists b, fcheck_simplex (fs_result (fst (fst x))) (fg_cutoff g) k vs = Ok b.
  Proof. intros I Hp. destruct (C63_simplex_rule per boxes (fg_gap g) (fg_cutoff g) _ _ _ k vs (i_hist _ _ _ _ _ _ I) Hp) as [(E & _)|(E & _)]; eauto. Qed.

  Lemma refine_loop_ok ps : forall s tasks log s' log' e, q_queued (fs_position s) = ps -> inv (s, tasks, log) ->
    frefine_loop g ps s log = (s', log', e) ->
    e = None /\ micros (s, tasks, log) (s', tasks, log') /\ (has_queued (fs_simplex s') = true \/ q_queued (fs_position s') = []) /\
    (measure s' <= measure s)%nat /\ q_running (fs_simplex s') = q_running (fs_simplex s).
  Proof. induction ps as [|p ps IH]; intros s tasks log s' log' e E I R; cbn [frefine_loop] in R.
    - destruct (has_queued (fs_simplex s)) eqn:Q; injection R as <- <- <-; repeat split; auto using ms_refl.
    - destruct (has_queued (fs_simplex s)) eqn:Q; [injection R as <- <- <-; repeat split; auto using ms_refl|].
      assert (Pop : pop_object (fs_position s) = Ok ({| q_queued := ps; q_all := q_all (fs_position s); q_running := q_running (fs_position s);
                        q_needs_saving := q_needs_saving (fs_position s) |}, p)) by (unfold pop_object; rewrite E; reflexivity).
      rewrite Pop in R. set (pq := {| q_queued := ps; q_all := _; q_running := _; q_needs_saving := _ |}) in *.
      assert (Hp : refinable per boxes p). { pose proof (i_pos _ _ _ _ _ _ I) as F. cbn [fst] in F. rewrite E in F. inversion F; auto. }
      destruct (inv_check_pos _ (fg_count_cutoff g) p I Hp) as (b & Eb). cbn [fst] in Eb.
      destruct (fg_stencil g) as [st|] eqn:St; [|pose proof (i_none _ _ _ _ _ _ I St) as X; cbn [fst] in X; congruence].
      destruct (inv_set_refined _ p I Hp) as (c & Ec). cbn [fst] in Ec.
      cbn [with_fposition fs_result] in R.
      assert (Skip : fg_recheck g = true -> b = false -> frefine_loop g ps (with_fposition s pq) (log ++ [FSkip p]) = (s', log', e) -> 
        e = None /\ micros (s, tasks, log) (s', tasks, log') /\ (has_queued (fs_simplex s') = true \/ q_queued (fs_position s') = []) /\
        (measure s' <= measure s)%nat /\ q_running (fs_simplex s') = q_running (fs_simplex s)).
      { intros G -> R'. assert (M : micro g (s, tasks, log) (with_fposition s pq, tasks, log ++ [FSkip p])) by (eapply m_skip; eauto).
        destruct (IH (with_fposition s pq) tasks (log ++ [FSkip p]) s' log' e eq_refl (micro_inv _ _ _ _ _ GC _ _ I M) R') as (X1 & X2 & X3 & X4 & X5).
        repeat split; auto; [econstructor; eauto|]. etransitivity; [exact X4|]. unfold measure. cbn [with_fposition fs_simplex fs_position]. rewrite E. cbn. lia. }
      assert (Ref : (fg_recheck g = true -> b = true) -> frefine_loop g ps (with_fresult (with_fsimplex (with_fposition s pq) (add_objects norm_fsimplex (fs_simplex s) (ftranslate p st))) c) (log ++ [FRefine p]) = (s', log', e) ->
        e = None /\ micros (s, tasks, log) (s', tasks, log') /\ (has_queued (fs_simplex s') = true \/ q_queued (fs_position s') = []) /\
        (measure s' <= measure s)%nat /\ q_running (fs_simplex s') = q_running (fs_simplex s)).
      { intros G R'. set (s2 := with_fresult _ _) in R'. assert (M : micro g (s, tasks, log) (s2, tasks, log ++ [FRefine p])).
        { eapply (m_refine g s tasks log pq p st c); eauto. intros G'. rewrite (G G') in Eb. auto. }
        destruct (IH s2 tasks (log ++ [FRefine p]) s' log' e eq_refl (micro_inv _ _ _ _ _ GC _ _ I M) R') as (X1 & X2 & X3 & X4 & X5).
        repeat split; auto; [econstructor; eauto| |].
        - etransitivity; [exact X4|]. unfold measure. subst s2. cbn [with_fposition with_fresult with_fsimplex fs_simplex fs_position]. rewrite E. cbn.
          rewrite add_objects_queued, app_length. unfold fstencil_size. rewrite St.
          match goal with |- context [length (filter ?f ?l)] => assert (L : (length (filter f l) <= length l)%nat) by (generalize l as l0; intros l0; induction l0; cbn; [lia|]; match goal with |- context [if ?x then _ else _] => destruct x end; cbn; lia) end.
          unfold ftranslate in *. rewrite !map_length in L. cbn. lia.
        - rewrite X5. subst s2. cbn. apply add_objects_running. }
      destruct (fg_recheck g) eqn:G.
      + rewrite Eb in R. destruct b.
        * cbn [fs_simplex fs_position fs_result with_fsimplex with_fposition with_fresult] in R. rewrite Ec in R. apply Ref; auto.
        * apply Skip; auto.
      + cbn [fs_simplex fs_position fs_result with_fsimplex with_fposition with_fresult] in R. rewrite Ec in R. apply Ref; auto. discriminate. Qed.

  (** After a fturn either the limit is reached or nothing is left to start. *)
  Lemma fill_ok n : forall s tasks log s' tasks' log' e, (measure s < n)%nat -> inv (s, tasks, log) ->
    ffill n g s tasks log = (s', tasks', log', e) ->
    e = None /\ micros (s, tasks, log) (s', tasks', log') /\
    ((fg_parallel g <= num_running (fs_simplex s'))%nat \/ (q_queued (fs_simplex s') = [] /\ q_queued (fs_position s') = [])).
  Proof. induction n as [|n IH]; intros s tasks log s' tasks' log' e L I F; [lia|]. cbn [ffill] in F.
    destruct (num_running (fs_simplex s) <? fg_parallel g)%nat eqn:N.
    2: { injection F as <- <- <- <-. apply Nat.ltb_ge in N. repeat split; auto using ms_refl. }
    apply Nat.ltb_lt in N. destruct (frefine_loop g (q_queued (fs_position s)) s log) as [[s1 log1] e1] eqn:R.
    destruct (refine_loop_ok _ _ tasks _ _ _ _ eq_refl I R) as (-> & M & H & L1 & R1).
    pose proof (micros_inv _ _ _ _ _ GC _ _ I M) as I1.
    destruct (has_queued (fs_simplex s1)) eqn:Q.
    2: { injection F as <- <- <- <-. repeat split; auto. right. split; [|destruct H; [discriminate|auto]]. unfold has_queued in Q. destruct (q_queued (fs_simplex s1)); [auto|discriminate]. }
    unfold has_queued in Q. destruct (q_queued (fs_simplex s1)) as [|sx sxs] eqn:Qs; [discriminate|]. clear Q.
    destruct (pop_running (fs_simplex s1)) as [[q sx']|] eqn:Pop; [|unfold pop_running, pop_object in Pop; rewrite Qs in Pop; discriminate].
    destruct (pop_running_inv _ _ _ Pop) as (P1 & P2 & P3 & P4). rewrite Qs in P1. injection P1 as <- ->.
    assert (V : Forall (good_position boxes) sx).
    { pose proof (i_verts _ _ _ _ _ _ I1) as V. rewrite Forall_forall in V. apply V. pose proof (qi_order (i_q _ _ _ _ _ _ I1)) as O. cbn [fst snd] in *.
      apply (proj1 (first_occ_in [] _ sx)). rewrite <- O, Qs. apply in_app_iff. right. left. auto. }
    cbn [with_fsimplex fs_result fs_simplex] in F.
    destruct (inv_check_simplex _ (fg_simplex_cutoff g) sx I1 V) as (b & Eb). cbn [fst] in Eb. rewrite Eb in F.
    assert (N1 : (num_running (fs_simplex s1) < fg_parallel g)%nat) by (unfold num_running in *; rewrite R1; auto).
    assert (LL : (measure s1 <= n)%nat) by lia. unfold measure in LL. rewrite Qs in LL. cbn [length] in LL.
    destruct b.
    - assert (M1 : micro g (s1, tasks, log1) (with_fsimplex s1 q, tasks ++ [mk_ftask sx FPending], log1 ++ [FStart sx])) by (eapply m_start; eauto).
      destruct (IH (with_fsimplex s1 q) (tasks ++ [mk_ftask sx FPending]) (log1 ++ [FStart sx]) s' tasks' log' e) as (X1 & X2 & X3); auto.
      + eapply micro_inv; eauto.
      + repeat split; auto. eapply micros_trans; [exact M|]. econstructor; eauto.
    - assert (In sx (q_running q)). { rewrite P3. unfold set_add. destruct (mem sx (q_running (fs_simplex s1))) eqn:Mm; [apply mem_spec; auto|]. apply in_app_iff. right. left. auto. }
      destruct (set_finished q sx) as [q'|] eqn:SF; [|unfold set_finished in SF; rewrite (proj2 (mem_spec sx (q_running q))) in SF by auto; discriminate].
      destruct (set_finished_inv _ _ _ SF) as (F1 & _).
      assert (M1 : micro g (s1, tasks, log1) (with_fsimplex s1 q', tasks, log1 ++ [FDiscard sx])) by (eapply m_discard; eauto).
      destruct (IH (with_fsimplex s1 q') tasks (log1 ++ [FDiscard sx]) s' tasks' log' e) as (X1 & X2 & X3); auto.
      + unfold measure. cbn [with_fsimplex fs_simplex fs_position]. rewrite F1. lia.
      + eapply micro_inv; eauto.
      + repeat split; auto. eapply micros_trans; [exact M|]. econstructor; eauto. Qed.

  Definition mst (k : fctrl) : mstate := (fk_state k, fk_tasks k, fk_log k).

  Lemma fill_exceptions n : forall s ts lg s' ts' lg' e, ffill n g s ts lg = (s', ts', lg', e) -> fexceptions ts = [] -> fexceptions ts' = [].
  Proof. induction n as [|n IHn]; intros s ts lg s' ts' lg' e; cbn [ffill]; destruct (_ <? _)%nat; intros F Ex; try (injection F as <- <- <- <-; exact Ex).
    destruct (frefine_loop _ _ _ _) as [[s1 l1] [e1|]]; [injection F as <- <- <- <-; exact Ex|].
    destruct (has_queued _); [|injection F as <- <- <- <-; exact Ex].
    destruct (pop_running _) as [[q sx]|]; [|injection F as <- <- <- <-; exact Ex].
    destruct (fcheck_simplex _ _ _ _) as [[|]|]; [| |injection F as <- <- <- <-; exact Ex].
    - eapply IHn; [exact F|]. unfold fexceptions in *. rewrite flat_map_app, Ex. reflexivity.
    - destruct (set_finished _ _); [|injection F as <- <- <- <-; exact Ex]. eapply IHn; [exact F|auto]. Qed.

  Lemma turn_ok k pick : inv (mst k) ->
    match fexceptions (fk_tasks k) with
    | [] => micros (mst k) (mst (fturn g k pick)) /\ fexceptions (fk_tasks (fturn g k pick)) = [] /\
      (if floop_condition (fk_state k)
       then fk_phase (fturn g k pick) = FRunning /\
            ((fg_parallel g <= num_running (fs_simplex (fk_state (fturn g k pick))))%nat \/
             (q_queued (fs_simplex (fk_state (fturn g k pick))) = [] /\ q_queued (fs_position (fk_state (fturn g k pick))) = []))
       else fk_phase (fturn g k pick) = FDraining /\ fk_state (fturn g k pick) = fk_state k /\ fk_log (fturn g k pick) = fk_log k /\ fk_tasks (fturn g k pick) = fpending (fk_tasks k))
    | es => exists e, In e es /\ fk_phase (fturn g k pick) = FRaised e /\ mst (fturn g k pick) = mst k
    end.
  Proof. intros I. unfold fturn. destruct (fexceptions (fk_tasks k)) as [|e es] eqn:E; cbn [fsome_exception].
    - assert (M0 : micro g (mst k) (fk_state k, fpending (fk_tasks k), fk_log k)) by (apply m_drop; auto).
      assert (EP : forall ts, fexceptions (fpending ts) = []). { induction ts as [|[sx [| |x]] ts IHt]; cbn; auto. }
      destruct (floop_condition (fk_state k)).
      + destruct (ffill _ g (fk_state k) (fpending (fk_tasks k)) (fk_log k)) as [[[s' t'] l'] e'] eqn:F.
        destruct (fun L => fill_ok _ _ _ _ _ _ _ _ L (micro_inv _ _ _ _ _ GC _ _ I M0) F) as (-> & M & H).
        { unfold ffill_fuel, measure. lia. }
        split; [|split].
        * eapply micros_trans; [apply micros_one; exact M0|exact M].
        * cbn [fk_tasks]. eapply fill_exceptions; [exact F|apply EP].
        * cbn [fk_phase fk_state]. auto.
      + split; [apply micros_one; exact M0|]. split; [cbn; apply EP|]. cbn. auto.
    - exists (nth (pick mod length (e :: es)) (e :: es) e). split; [|split; reflexivity].
      apply nth_In. apply Nat.mod_upper_bound. discriminate. Qed.

  Lemma finish_ok k i sx r : inv (mst k) -> fwithin 9 boxes (dr_pos r) -> nth_error (fk_tasks k) i = Some (mk_ftask sx FPending) ->
    micro g (mst k) (mst (ffinish_task g k i sx r)) /\ fk_phase (ffinish_task g k i sx r) = fk_phase k /\
    fk_tasks (ffinish_task g k i sx r) = fset_status i FCompleted (fk_tasks k).
  Proof. intros I Hr E. unfold ffinish_task, fprocess_result.
    pose proof (fresh_pos g _ (gf_boxes g GC) Hr) as Hp. pose proof (i_hist _ _ _ _ _ _ I) as HH. cbn [mst fst snd] in HH.
    destruct (rel_total g rs0 ps0 Q0 P0 _ I r Hp) as (c & Ea & Hh). cbn [mst fst snd] in Ea, Hh. rewrite Ea.
    destruct (rel_boxes g _ _ _ Hh) as (Ep & Ebx).
    assert (Hp' : good_position boxes (map2 (fnormalize1 (fc_per c)) (fc_boxes c) (dr_pos r))). { rewrite Ep, Ebx. apply (stored_good (fg_per g) (fg_boxes g) r); auto. apply (gf_boxes g GC). }
    assert (Ed : exists d, fcheck_pos_refinement c (fg_cutoff g) 0 (map2 (fnormalize1 (fc_per c)) (fc_boxes c) (dr_pos r)) = Ok d).
    { destruct (C63_refinement_check _ _ _ _ _ _ _ _ Hh Hp') as [(X & _)|(X & _)]; eauto. }
    destruct Ed as (d & Ed).
    assert (SF : exists q, set_finished (fs_simplex (fk_state k)) sx = Ok q).
    { unfold set_finished. rewrite (proj2 (mem_spec sx (q_running (fs_simplex (fk_state k))))); eauto.
      eapply Permutation_in; [apply (i_tasks _ _ _ _ _ _ I)|]. eapply in_open_pending; eauto. }
    destruct SF as (q & SF).
    set (sn := match fg_stencil g with Some _ => true | None => false end).
    assert (M := m_record g (fk_state k) (fk_tasks k) (fk_log k) i r sx c (is_fnode (fg_gap g) r) (sn && d) q E Hr Ea).
    assert (A1 : is_fnode (fg_gap g) r = true -> fg_stencil g <> None -> fcheck_pos_refinement c (fg_cutoff g) 0 (map2 (fnormalize1 (fc_per c)) (fc_boxes c) (dr_pos r)) = Ok (sn && d)).
    { intros _ X. unfold sn. destruct (fg_stencil g); [auto|congruence]. }
    assert (A2 : fg_stencil g = None -> sn && d = false) by (intros X; unfold sn; rewrite X; auto).
    specialize (M A1 A2 SF). unfold after_result in M.
    destruct (is_fnode (fg_gap g) r) eqn:N; cbn [andb].
    - fold sn. destruct sn; cbn [andb] in *.
      + cbn [fs_result with_fresult]. rewrite Ed. destruct d.
        * cbn [fs_simplex with_fresult with_fposition]. rewrite SF. repeat split. exact M.
        * cbn [fs_simplex with_fresult]. rewrite SF. repeat split. exact M.
      + cbn [fs_simplex with_fresult]. rewrite SF. repeat split. exact M.
    - cbn [fs_simplex with_fresult]. rewrite SF. repeat split. exact M. Qed.

  (** ** All events *)
  Lemma step_ok k ev k' : inv (mst k) -> valid_fevent boxes ev -> fstep g k ev = Some k' -> micros (mst k) (mst k').
  Proof. intros I V S. destruct ev as [pick|i r|i e| |pick]; cbn [fstep] in S.
    - destruct (fk_phase k) eqn:Ph; try discriminate. injection S as <-.
      pose proof (turn_ok k pick I) as H. destruct (fexceptions (fk_tasks k)).
      + apply H.
      + destruct H as (e0 & _ & _ & H). rewrite H. constructor.
    - destruct (nth_error (fk_tasks k) i) as [[sx [| |e]]|] eqn:E; try discriminate. injection S as <-.
      destruct (finish_ok k i sx r I V E) as (M & _). apply micros_one. auto.
    - destruct (nth_error (fk_tasks k) i) as [[sx [| |e']]|] eqn:E; try discriminate. injection S as <-.
      apply micros_one. eapply m_fail; eauto.
    - injection S as <-. constructor.
    - destruct (fk_phase k); try discriminate. destruct (fpending (fk_tasks k)); [|discriminate]. injection S as <-. constructor. Qed.

  Lemma step_inv k ev k' : inv (mst k) -> valid_fevent boxes ev -> fstep g k ev = Some k' -> inv (mst k').
  Proof. intros I V S. eapply micros_inv; eauto. eapply step_ok; eauto. Qed.

  Lemma start_inv s : good_fstart g s rs0 ps0 Q0 P0 -> inv (mst (fstart s)).
  Proof. intros [HH HR HF (Q1 & Q2 & Q3 & Q5) (P1 & P2 & P3 & P5) V HP HN].
    assert (R : forall l, l = [] -> frefinements g l = []) by (intros ? ->; unfold frefinements; destruct (fg_stencil g); auto).
    constructor; cbn [mst fstart fk_state fk_tasks fk_log fst snd]; rewrite ?R, ?app_nil_r by auto; cbn [frecorded frefined flat_map map]; rewrite ?app_nil_r; auto.
    - destruct GC as [B1 B2 B3 B4 _]. repeat (split; auto).
    - constructor; cbn; auto.
      + rewrite Q1. rewrite first_occ_filter by auto. symmetry. clear. induction Q0; cbn; [auto|]. f_equal; auto.
      + rewrite Q2. constructor.
    - rewrite Q2. constructor.
    - unfold num_running. rewrite Q2. cbn. lia.
    - rewrite P1. auto.
    - intros p. cbn. rewrite P1, P5. tauto.
    - rewrite P1. auto.
    - rewrite P1. auto. Qed.

  (** Induction fover the events of a run. *)
  Lemma reach_ind (Pk : fctrl -> Prop) s : good_fstart g s rs0 ps0 Q0 P0 -> Pk (fstart s) ->
    (forall k ev k', inv (mst k) -> Pk k -> valid_fevent boxes ev -> fstep g k ev = Some k' -> Pk k') ->
    forall k, freaches g s k -> inv (mst k) /\ Pk k.
  Proof. intros GS P0' ST k (evs & V & R). pose proof (start_inv s GS) as I0. revert P0' I0 R. generalize (fstart s) as k0.
    induction V as [|ev evs Hv V IH]; cbn [frun_events]; intros k0 HP I R; [injection R as <-; auto|].
    destruct (fstep g k0 ev) as [k1|] eqn:E; [|discriminate]. apply (IH k1); eauto using step_inv. Qed.
End Steps.
