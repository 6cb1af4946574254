(** The statements of PropFloatSearch.v about single states of a search, proved (compare
    SearchProps.v). *)
From Verif Require Import Base BaseFacts CoordSys CellList Queue QueueFacts SpecQueue.
From Coq Require Import ZArith Reals.
From Flocq Require Import Core BinarySingleNaN.
From Verif Require Import Float FloatFacts FloatVector NelderMead FloatMin FloatCell SpecFloatCell FloatCellNum FloatCellFacts PropFloatCell FloatCheck PropFloatCheck FloatController SpecFloatSearch FloatSearchFacts FloatSearchSteps FloatSearchLog.
From Coq Require Import Lra.
Open Scope list_scope.

Section Props.
  Variables (g : fconfig) (rs : list dmin_result) (ps : list fpoint) (Q : list fsimplex) (P : list fpoint).
  Variables (s : fstate) (k : fctrl).
  Hypothesis GC : good_fconfig g.
  Hypothesis GS : good_fstart g s rs ps Q P.
  Hypothesis R : freaches g s k.
  Let boxes := fg_boxes g.
  Let per := fg_per g.
  Let log := fk_log k.

  Let I : inv g rs ps Q P (mst k) := proj1 (reach_kinv g rs ps Q P GC s k GS R).
  Let K : kinv g rs ps k := proj2 (reach_kinv g rs ps Q P GC s k GS R).

  Lemma tasks_perm : Permutation (fin_flight k) (q_running (fs_simplex (fk_state k))).
  Proof. exact (i_tasks _ _ _ _ _ _ I). Qed.

  Lemma parallel_limit : (frunning_now k <= List.length (fin_flight k) <= fg_parallel g)%nat.
  Proof. split.
    - unfold frunning_now, fin_flight. rewrite map_length. clear. induction (fk_tasks k) as [|[sx [| |e]] ts IH]; cbn; lia.
    - rewrite (Permutation_length tasks_perm). exact (i_par _ _ _ _ _ _ I). Qed.

  Lemma partition : Permutation (q_queued (fs_simplex (fk_state k)) ++ fin_flight k ++ map fst (frecorded log) ++ fdiscarded log)
    (first_occurrences [] (Q ++ frefinements g log)).
  Proof. pose proof (i_q _ _ _ _ _ _ I) as [O A Rn]. cbn [mst fst snd] in *. fold log in O, Rn. rewrite <- O.
    rewrite tasks_perm. rewrite <- ended_perm. rewrite Permutation_app_comm. apply Permutation_app_tail. exact Rn. Qed.
  Lemma scheduled_set x : In x (Q ++ frefinements g log) <->
    In x (q_queued (fs_simplex (fk_state k))) \/ In x (fin_flight k) \/ In x (map fst (frecorded log)) \/ In x (fdiscarded log).
  Proof. split.
    - intros H. assert (X : In x (first_occurrences [] (Q ++ frefinements g log))) by (apply first_occ_in; auto).
      apply (Permutation_in _ (Permutation_sym partition)) in X. rewrite !in_app_iff in X. tauto.
    - intros H. apply (proj1 (first_occ_in [] _ x)). apply (Permutation_in _ partition). rewrite !in_app_iff. tauto. Qed.
  Lemma popped_nodup : NoDup (popped log).
  Proof. pose proof (i_q _ _ _ _ _ _ I) as [O A Rn]. cbn [mst fst snd] in *. pose proof (first_occ_nodup [] (Q ++ frefinements g log)) as N. fold log in O. rewrite <- O in N.
    apply nodup_app_l in N. auto. Qed.
  Lemma started_nodup : NoDup (fstarted log).
  Proof. pose proof popped_nodup as N. apply (Permutation_NoDup (popped_perm log)) in N. apply nodup_app_l in N. auto. Qed.
  Lemma started_scheduled x : In x (fstarted log) -> In x (Q ++ frefinements g log).
  Proof. intros H. apply (proj1 (first_occ_in [] _ x)). pose proof (qi_order (i_q _ _ _ _ _ _ I)) as O. cbn [mst fst snd] in O. fold log in O. rewrite <- O.
    apply in_app_iff. left. apply (Permutation_in _ (Permutation_sym (popped_perm log))). apply in_app_iff. auto. Qed.
  Lemma recorded_nodup : NoDup (map fst (frecorded log)).
  Proof. pose proof (q_inv_running_nodup (i_q _ _ _ _ _ _ I)) as N. cbn [mst fst snd] in N. fold log in N.
    assert (N2 : NoDup (ended log)). { clear -N. induction (q_running (fs_simplex (fk_state k))); cbn in N; auto. inversion N; auto. }
    apply (Permutation_NoDup (ended_perm log)) in N2. apply nodup_app_l in N2. auto. Qed.
  Lemma started_split : Permutation (fstarted log) (fin_flight k ++ map fst (frecorded log)).
  Proof. pose proof (qi_run (i_q _ _ _ _ _ _ I)) as Rn. cbn [mst fst snd] in Rn. fold log in Rn. rewrite popped_perm, ended_perm in Rn.
    rewrite tasks_perm. apply (Permutation_app_inv_r (fdiscarded log)). rewrite <- Rn, <- app_assoc. reflexivity. Qed.

  Lemma decisions l1 a l2 : log = l1 ++ a :: l2 -> decided g rs ps l1 a.
  Proof. destruct K as (L & _). apply L. Qed.
  Lemma in_log {A} (f : faction -> list A) x : In x (flat_map f log) -> exists l1 a l2, log = l1 ++ a :: l2 /\ In x (f a).
  Proof. intros H. apply in_flat_map in H as (a & Ha & Hx). apply in_split in Ha as (l1 & l2 & E). eauto. Qed.
  Lemma at_least_mono {A} (X Y : A -> Prop) n l : (forall a, X a -> Y a) -> at_least X n l -> at_least Y n l.
  Proof. intros H. induction 1; [constructor|apply al_yes; auto|apply al_skip; auto]. Qed.
  Lemma node_at_mono C rs1 rs2 v : incl rs1 rs2 -> node_at per boxes (fg_gap g) rs1 v C -> node_at per boxes (fg_gap g) rs2 v C.
  Proof. intros H (r & Ir & X). exists r. auto. Qed.
  Lemma results_prefix l1 l2 : incl (results_at rs l1) (results_at rs (l1 ++ l2)).
  Proof. intros x H. unfold results_at in *. proj. rewrite map_app, app_assoc. apply in_app_iff. auto. Qed.
  Lemma discarded_near x : In x (fdiscarded log) -> at_least (fun v => node_at per boxes (fg_gap g) (rs ++ map snd (frecorded log)) v (less (fg_cutoff g))) (S (fg_simplex_cutoff g)) x.
  Proof. intros H. apply in_log in H as (l1 & a & l2 & E & H). destruct a; cbn in H; try contradiction. destruct H as [-> |[]].
    pose proof (decisions _ _ _ E) as D. cbn in D. eapply at_least_mono; [|exact D]. intros v. unfold near_node. apply node_at_mono. rewrite E. apply results_prefix. Qed.

  Lemma results : cl_flat (fc_nodes (fs_result (fk_state k))) = filter (is_fnode (fg_gap g)) (map (fstored per boxes) (rs ++ map snd (frecorded log))) /\
    fc_rejected (fs_result (fk_state k)) = filter (fun r => negb (is_fnode (fg_gap g) r)) (map (fstored per boxes) (rs ++ map snd (frecorded log))) /\
    cl_flat (fc_refined (fs_result (fk_state k))) = ps ++ frefined log.
  Proof. destruct (i_hist _ _ _ _ _ _ I) as (A1 & A2 & A3 & A4 & A5 & A6 & A7). exact (C62_classified per boxes (fg_gap g) (fg_cutoff g) _ _ _ A1 A5 A6 A7). Qed.
  Lemma recorded_started x r : In (x, r) (frecorded log) -> In x (fstarted log).
  Proof. intros H. apply in_log in H as (l1 & a & l2 & E & H). destruct a; cbn in H; try contradiction. destruct H as [[= -> ->] |[]].
    pose proof (decisions _ _ _ E) as [D _]. rewrite E. unfold fstarted. rewrite flat_map_app. apply in_app_iff. auto. Qed.

  Lemma position_set p : In p (P ++ fto_refine log) <-> In p (q_queued (fs_position (fk_state k))) \/ In p (frefined log) \/ In p (fskipped log).
  Proof. etransitivity; [symmetry; apply (i_pall _ _ _ _ _ _ I)|]. apply (i_pdone _ _ _ _ _ _ I). Qed.

  Lemma complete : fk_phase k = FReturned \/ fk_phase k = FDraining ->
    q_queued (fs_simplex (fk_state k)) = [] /\ q_running (fs_simplex (fk_state k)) = [] /\ q_queued (fs_position (fk_state k)) = [] /\ fk_tasks k = [].
  Proof. intros H. destruct K as (_ & _ & KP). assert (X : fk_tasks k = [] /\ floop_condition (fk_state k) = false) by (destruct H as [H|H]; rewrite H in KP; auto).
    destruct X as [X1 X2]. destruct (loop_condition_open _ _ _ _ _ _ I X2) as (A & B & C & _). auto. Qed.

  Lemma refined_nodes : fg_stencil g <> None -> (fk_phase k = FReturned \/ fk_phase k = FDraining) ->
    forall x r, In (x, r) (frecorded log) -> is_fnode (fg_gap g) r = true ->
    let p := dr_pos (fstored per boxes r) in
    In (norm_fpos p) (frefined log) \/ exists q, In q (ps ++ frefined log) /\ (close g p q \/ close g (norm_fpos p) q).
  Proof. intros St H x r Hr Hn p. change p with (fnormed g r). clear p. destruct K as (_ & KN & _). destruct (KN St x r Hr Hn) as [X|(q & X & Y)].
    2: { right. exists q. auto. }
    destruct (complete H) as (_ & _ & Qp & _).
    assert (H2 : In (norm_fpos (fnormed g r)) (P ++ fto_refine log)) by (apply in_app_iff; right; exact X).
    apply position_set in H2. rewrite Qp in H2. destruct H2 as [[]|[H2|H2]]; [left; auto|right].
    apply in_log in H2 as (l1 & a & l2 & E & Ha). destruct a; cbn in Ha; try contradiction. destruct Ha as [Ha|[]]. subst p.
    destruct (decisions _ _ _ E) as (_ & q & Hq & D). exists q. split; auto. unfold refined_at in Hq. rewrite E. unfold frefined. rewrite flat_map_app. rewrite !in_app_iff in *. tauto. Qed.

  (** separation *)
  Lemma refined_separated : fg_recheck g = true -> fg_count_cutoff g = 0%nat -> separated per boxes (fg_cutoff g) (frefined log) /\
    forall p q, In p (frefined log) -> In q ps -> (reduced (fg_cutoff g) < B2R (fdist per boxes p q))%R.
  Proof. intros Rc Cc.
    assert (D : forall l1 p l2, log = l1 ++ FRefine p :: l2 -> forall q, In q (ps ++ frefined l1) -> far g p q).
    { intros l1 p l2 E q Hq. destruct (decisions _ _ _ E) as [_ D]. apply (D Rc Cc). exact Hq. }
    split.
    - unfold separated. revert D. generalize log as l. clear. intros l.
      induction l as [|a l IH] using rev_ind; intros D i j p q O Hi Hj; [destruct j; discriminate|].
      assert (IH' := IH (fun l1 p l2 E => D l1 p (l2 ++ [a]) ltac:(rewrite E, <- app_assoc; reflexivity))).
      unfold frefined in *. rewrite flat_map_app in *. cbn [flat_map] in *. rewrite app_nil_r in *.
      set (m := flat_map _ l) in *. destruct (Nat.lt_ge_cases j (List.length m)) as [Lj|Lj].
      + rewrite nth_error_app1 in Hi, Hj by lia. exact (IH' i j p q O Hi Hj).
      + rewrite nth_error_app2 in Hj by auto. destruct a as [| | |p0| |]; try (destruct (j - List.length m)%nat; discriminate).
        destruct (j - List.length m)%nat as [|[|?]] eqn:Ej; try discriminate. injection Hj as <-.
        assert (Hi' : nth_error m i = Some p) by (rewrite nth_error_app1 in Hi by lia; auto).
        apply (D l p0 [] eq_refl). apply in_app_iff. right. eapply nth_error_In; eauto.
    - intros p q Hp Hq. apply in_log in Hp as (l1 & a & l2 & E & Ha). destruct a; cbn in Ha; try contradiction. destruct Ha as [<- |[]].
      apply (D _ _ _ E). apply in_app_iff. auto. Qed.

  Lemma refined_refinable : Forall (refinable per boxes) (frefined log).
  Proof. apply Forall_forall. intros p Hp. apply in_log in Hp as (l1 & a & l2 & E & Ha). destruct a; cbn in Ha; try contradiction. destruct Ha as [<- |[]]. apply (decisions _ _ _ E). Qed.
  Lemma refined_nodup : NoDup (frefined log).
  Proof. pose proof (i_pnd _ _ _ _ _ _ I) as N. apply nodup_app_l in N. exact N. Qed.
  Lemma refinements_length : List.length (frefinements g log) = (List.length (frefined log) * fstencil_size g)%nat.
  Proof. unfold frefinements, fstencil_size. destruct (fg_stencil g) as [st|]; [|cbn; lia]. induction (frefined log) as [|p l IH]; cbn; auto. rewrite app_length, !map_length, IH. reflexivity. Qed.
  Lemma started_bound : (List.length (fstarted log) + List.length (fdiscarded log) <= List.length Q + List.length (frefined log) * fstencil_size g)%nat.
  Proof. rewrite <- refinements_length, <- app_length, <- app_length. rewrite <- (Permutation_length (popped_perm log)).
    apply NoDup_incl_length; [apply popped_nodup|]. intros x Hx. pose proof (qi_order (i_q _ _ _ _ _ _ I)) as O. cbn [mst fst snd] in O. fold log in O.
    apply (proj1 (first_occ_in [] _ x)). rewrite <- O. apply in_app_iff. auto. Qed.
  (** progress *)
  Lemma progress pick k' : (1 <= fg_parallel g)%nat -> fexceptions (fk_tasks k) = [] -> fstep g k (FTurn pick) = Some k' ->
    fexceptions (fk_tasks k') = [] /\
    (fk_phase k' = FRunning \/ fk_phase k' = FDraining) /\
    (frunning_now k' = 0%nat -> fk_phase k' = FDraining \/ (forall pick', exists k'', fstep g k' (FTurn pick') = Some k'' /\ fk_phase k'' = FDraining)).
  Proof. intros Par E S. cbn [fstep] in S. destruct (fk_phase k) eqn:Ph; try discriminate. injection S as <-.
    pose proof (turn_ok _ _ _ _ _ GC k pick I) as H. rewrite E in H. destruct H as (M & E' & H).
    split; auto. pose proof (micros_inv _ _ _ _ _ GC _ _ I M) as I'.
    destruct (floop_condition (fk_state k)); [|destruct H as [H _]; auto].
    destruct H as [H1 H2]. split; auto. intros Z. right. intros pick'. cbn [fstep]. rewrite H1. eexists. split; [reflexivity|].
    pose proof (turn_ok _ _ _ _ _ GC _ pick' I') as H. rewrite E' in H. destruct H as (_ & _ & H).
    assert (OP : open_simplices (fk_tasks (fturn g k pick)) = []).
    { unfold frunning_now in Z. unfold open_simplices. clear -Z E'. revert Z E'. generalize (fk_tasks (fturn g k pick)) as ts. unfold fexceptions.
      induction ts as [|[sx [| |e]] ts IH]; cbn; auto; discriminate. }
    pose proof (i_tasks _ _ _ _ _ _ I') as PT. cbn [mst fst snd] in PT. rewrite OP in PT. apply Permutation_nil in PT.
    assert (LC : floop_condition (fk_state (fturn g k pick)) = false).
    { destruct H2 as [H2|[A B]]; [unfold num_running in H2; rewrite PT in H2; cbn in H2; lia|].
      unfold floop_condition, finished, objects, has_queued. rewrite PT, A, B. reflexivity. }
    rewrite LC in H. apply H. Qed.

  Lemma gather_immediate pick : fk_phase k = FDraining -> exists k', fstep g k (FGather pick) = Some k' /\ fk_phase k' = FReturned /\ fk_state k' = fk_state k.
  Proof. intros Ph. destruct (complete (or_intror Ph)) as (_ & _ & _ & T). cbn [fstep]. rewrite Ph, T. cbn. eexists. split; [reflexivity|]. auto. Qed.

  Lemma failure_surfaces pick : fk_phase k = FRunning -> fexceptions (fk_tasks k) <> [] ->
    exists k' e, fstep g k (FTurn pick) = Some k' /\ fk_phase k' = FRaised e /\ In e (fexceptions (fk_tasks k)) /\ fk_state k' = fk_state k.
  Proof. intros Ph E. cbn [fstep]. rewrite Ph. pose proof (turn_ok _ _ _ _ _ GC k pick I) as H. destruct (fexceptions (fk_tasks k)); [congruence|].
    destruct H as (e0 & A & B & C). exists (fturn g k pick), e0. split; auto. split; auto. split; auto. exact (f_equal (fun x : mstate => fst (fst x)) C). Qed.
  Lemma raised_exception e : fk_phase k = FRaised e -> In e (fexceptions (fk_tasks k)).
  Proof. intros Ph. destruct K as (_ & _ & KP). rewrite Ph in KP. auto. Qed.
End Props.
