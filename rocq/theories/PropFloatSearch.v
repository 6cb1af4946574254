(** Property theorems C64: whole searches when coordinates, distances and values are doubles.

    [freaches g s k] (SpecFloatSearch.v): the search with configuration [g], started in state [s],
    is in the situation [k] after some sequence of scheduler turns, ends and failures of
    minimizations.  [good_fstart g s rs ps Q P]: the start state has the results [rs], refined
    positions [ps], waiting simplices [Q] and waiting positions [P]; [C64_fresh_start] and
    [C64_restart] give such states. *)
From Verif Require Import Base BaseFacts CoordSys CellList Queue QueueFacts SpecQueue.
From Coq Require Import ZArith Reals Permutation.
From Flocq Require Import Core BinarySingleNaN.
From Verif Require Import Float FloatFacts FloatVector NelderMead FloatMin FloatCell SpecFloatCell FloatCellNum FloatCellFacts PropFloatCell FloatCheck PropFloatCheck FloatController SpecFloatSearch
  FloatSearchFacts FloatSearchSteps FloatSearchLog FloatSearchProps FloatSearchEnd FloatPacking FloatStencil FloatSearchStart FloatSearchExample.
From Coq Require Import Lra.
Open Scope list_scope.

(** *** Start states *)
Theorem C64_fresh_start : forall g order mesh force, good_fconfig g -> Forall (Forall (good_position (fg_boxes g))) mesh -> NoDup (map norm_fsimplex mesh) ->
  exists s, fcreate_state (fg_per g) (fg_boxes g) (fg_gap g) (fg_cutoff g) order None mesh force = Ok s /\
    good_fstart g s [] [] (map norm_fsimplex mesh) [] /\ Forall (fun x => norm_fsimplex x = x) (map norm_fsimplex mesh).
Proof. intros g order mesh force GC. apply ffresh_start; auto. Qed.
Print Assumptions C64_fresh_start.
(** a search created from the state of another one, at any moment: it has the same nodes
    (normalised once more) and refined positions, and what was waiting or being minimized waits *)
Theorem C64_restart : forall g rs ps Q P s k order mesh (force : bool), good_fconfig g -> good_fstart g s rs ps Q P -> freaches g s k ->
  Forall (fun x => norm_fsimplex x = x) Q -> Forall (fun p => norm_fpos p = p) P ->
  (forall l, Permutation (order l) l) -> Forall (Forall (good_position (fg_boxes g))) mesh -> NoDup (map norm_fsimplex mesh) ->
  exists s' Q' Q'' P' rs', fcreate_state (fg_per g) (fg_boxes g) (fg_gap g) (fg_cutoff g) order (Some (fk_state k)) mesh force = Ok s' /\
    good_fstart g s' rs' (ps ++ frefined (fk_log k)) Q'' P' /\
    Permutation Q' (q_queued (fs_simplex (fk_state k)) ++ fin_flight k) /\ P' = q_queued (fs_position (fk_state k)) /\
    (forall x, In x Q'' <-> In x Q' \/ force = true /\ In x (map norm_fsimplex mesh)) /\
    cl_flat (fc_nodes (fs_result s')) = map (fstored (fg_per g) (fg_boxes g)) (cl_flat (fc_nodes (fs_result (fk_state k)))) /\
    fc_rejected (fs_result s') = map (fstored (fg_per g) (fg_boxes g)) (fc_rejected (fs_result (fk_state k))) /\
    Forall (fun x => norm_fsimplex x = x) Q'' /\ Forall (fun p => norm_fpos p = p) P' /\
    (forall x, In x Q' -> ~ In x (map fst (frecorded (fk_log k))) /\ ~ In x (fdiscarded (fk_log k))).
Proof. intros g rs ps Q P s k order mesh force GC GS R NQ NP O Hm Nm. destruct (frestart g GC rs ps Q P s k GS R NQ NP order mesh force O Hm Nm) as (EQ & s' & E & G & F1 & F2 & N1 & N2).
  do 5 eexists. split; [exact E|]. split; [exact G|]. split; [exact EQ|]. split; [reflexivity|]. split.
  - intros x. destruct force; [|intuition discriminate]. unfold fwith_mesh. rewrite in_app_iff, filter_In. split; [intuition|].
    intros [H|(_ & H)]; auto. destruct (mem x (objects order (fs_simplex (fk_state k)))) eqn:M; [left; apply mem_spec; auto|auto].
  - split; auto. split; auto. split; auto. split; auto. pose proof (partition g rs ps Q P s k GC GS R) as Pa. apply Permutation_sym in Pa. pose proof (Permutation_NoDup Pa (first_occ_nodup [] _)) as ND. rewrite app_assoc in ND.
    intros x Hx. apply (Permutation_in _ EQ) in Hx. split; intros Hy; eapply nodup_app_disj; eauto; apply in_app_iff; auto. Qed.
Print Assumptions C64_restart.

(** *** Limit on parallel minimizations *)
Theorem C64_parallel_limit : forall g rs ps Q P s k, good_fconfig g -> good_fstart g s rs ps Q P -> freaches g s k ->
  (frunning_now k <= fg_parallel g)%nat /\ (List.length (fin_flight k) <= fg_parallel g)%nat.
Proof. intros g rs ps Q P s k GC GS R. pose proof (parallel_limit g rs ps Q P s k GC GS R). lia. Qed.
Print Assumptions C64_parallel_limit.

(** *** Nothing is lost, nothing is done twice *)
Theorem C64_no_simplex_lost : forall g rs ps Q P s k, good_fconfig g -> good_fstart g s rs ps Q P -> freaches g s k ->
  (forall x, In x (Q ++ frefinements g (fk_log k)) <->
     In x (q_queued (fs_simplex (fk_state k))) \/ In x (fin_flight k) \/ In x (map fst (frecorded (fk_log k))) \/ In x (fdiscarded (fk_log k))) /\
  NoDup (q_queued (fs_simplex (fk_state k)) ++ fin_flight k ++ map fst (frecorded (fk_log k)) ++ fdiscarded (fk_log k)).
Proof. intros g rs ps Q P s k GC GS R. split; [intros x; apply (scheduled_set g rs ps Q P s k GC GS R)|].
  eapply Permutation_NoDup; [symmetry; apply (partition g rs ps Q P s k GC GS R)|]. apply first_occ_nodup. Qed.
Print Assumptions C64_no_simplex_lost.
Theorem C64_minimized_once : forall g rs ps Q P s k, good_fconfig g -> good_fstart g s rs ps Q P -> freaches g s k ->
  NoDup (fstarted (fk_log k)) /\ Permutation (fstarted (fk_log k)) (fin_flight k ++ map fst (frecorded (fk_log k))) /\
  (forall x, In x (fstarted (fk_log k)) -> In x (Q ++ frefinements g (fk_log k))).
Proof. intros g rs ps Q P s k GC GS R. split; [apply (started_nodup g rs ps Q P s k GC GS R)|]. split; [apply (started_split g rs ps Q P s k GC GS R)|apply (started_scheduled g rs ps Q P s k GC GS R)]. Qed.
Print Assumptions C64_minimized_once.
(** a simplex is started or discarded according to the nodes known at that moment: discarded if
    more than simplex_check_cutoff of its vertices have a node at a computed distance below the
    cutoff; started unless more than that many have one below the cutoff reduced by 2^-30 *)
Theorem C64_why_started_or_discarded : forall g rs ps Q P s k, good_fconfig g -> good_fstart g s rs ps Q P -> freaches g s k ->
  forall before x after,
  let known := rs ++ map snd (frecorded before) in
  let near close v := node_at (fg_per g) (fg_boxes g) (fg_gap g) known v close in
  (fk_log k = before ++ FStart x :: after -> ~ at_least (near (fun d => (B2R d <= reduced (fg_cutoff g))%R)) (S (fg_simplex_cutoff g)) x) /\
  (fk_log k = before ++ FDiscard x :: after -> at_least (near (less (fg_cutoff g))) (S (fg_simplex_cutoff g)) x).
Proof. intros g rs ps Q P s k GC GS R before x after known near. split; intros E; exact (decisions g rs ps Q P s k GC GS R _ _ _ E). Qed.
Print Assumptions C64_why_started_or_discarded.
Theorem C64_no_position_lost : forall g rs ps Q P s k, good_fconfig g -> good_fstart g s rs ps Q P -> freaches g s k ->
  (forall p, In p (P ++ fto_refine (fk_log k)) <-> In p (q_queued (fs_position (fk_state k))) \/ In p (frefined (fk_log k)) \/ In p (fskipped (fk_log k))) /\
  (forall before p after, fk_log k = before ++ FSkip p :: after ->
     exists q, In q (ps ++ frefined before) /\ less (fg_cutoff g) (fdist (fg_per g) (fg_boxes g) p q)) /\
  (forall before p after, fk_log k = before ++ FQueue p :: after ->
     exists x r before', before = before' ++ [FRecord x r] /\ is_fnode (fg_gap g) r = true /\ p = norm_fpos (dr_pos (fstored (fg_per g) (fg_boxes g) r))).
Proof. intros g rs ps Q P s k GC GS R. split; [intros p; apply (position_set g rs ps Q P s k GC GS R)|]. split; intros before p after E; pose proof (decisions g rs ps Q P s k GC GS R _ _ _ E) as D; cbn in D.
  - apply D.
  - destruct D as (l' & x & r & A & B & C & _). exists x, r, l'. auto. Qed.
Print Assumptions C64_no_position_lost.

(** *** Results *)
Theorem C64_one_result_each : forall g rs ps Q P s k, good_fconfig g -> good_fstart g s rs ps Q P -> freaches g s k ->
  let all := map (fstored (fg_per g) (fg_boxes g)) (rs ++ map snd (frecorded (fk_log k))) in
  cl_flat (fc_nodes (fs_result (fk_state k))) = filter (is_fnode (fg_gap g)) all /\
  fc_rejected (fs_result (fk_state k)) = filter (fun r => negb (is_fnode (fg_gap g) r)) all /\
  cl_flat (fc_refined (fs_result (fk_state k))) = ps ++ frefined (fk_log k).
Proof. intros g rs ps Q P s k GC GS R. exact (results g rs ps Q P s k GC GS R). Qed.
Print Assumptions C64_one_result_each.
Theorem C64_complete : forall g rs ps Q P s k, good_fconfig g -> good_fstart g s rs ps Q P -> freaches g s k -> fk_phase k = FReturned ->
  q_queued (fs_simplex (fk_state k)) = [] /\ fin_flight k = [] /\ q_queued (fs_position (fk_state k)) = [] /\
  (forall x, In x (Q ++ frefinements g (fk_log k)) <-> In x (map fst (frecorded (fk_log k))) \/ In x (fdiscarded (fk_log k))) /\
  (forall p, In p (P ++ fto_refine (fk_log k)) <-> In p (frefined (fk_log k)) \/ In p (fskipped (fk_log k))) /\
  Permutation (fstarted (fk_log k)) (map fst (frecorded (fk_log k))).
Proof. intros g rs ps Q P s k GC GS R Ph. destruct (complete g rs ps Q P s k GC GS R (or_introl Ph)) as (A & B & C & D).
  assert (F : fin_flight k = []) by (unfold fin_flight; rewrite D; reflexivity).
  split; auto. split; auto. split; auto. split; [|split].
  - intros x. rewrite (scheduled_set g rs ps Q P s k GC GS R). rewrite A, F. cbn. tauto.
  - intros p. rewrite (position_set g rs ps Q P s k GC GS R). rewrite C. cbn. tauto.
  - rewrite (started_split g rs ps Q P s k GC GS R), F. reflexivity. Qed.
Print Assumptions C64_complete.
(** when the search returns, every node found in it has a refined position at a computed
    distance below the cutoff, from the node or from the same coordinates with the signs of
    zeros dropped *)
Theorem C64_every_node_refined : forall g rs ps Q P s k, good_fconfig g -> good_fstart g s rs ps Q P -> freaches g s k ->
  fk_phase k = FReturned -> fg_stencil g <> None ->
  forall r, In r (map snd (frecorded (fk_log k))) -> is_fnode (fg_gap g) r = true ->
  exists p q, Forall2 (fun x y => B2R x = B2R y) p (dr_pos (fstored (fg_per g) (fg_boxes g) r)) /\
    In q (cl_flat (fc_refined (fs_result (fk_state k)))) /\ less (fg_cutoff g) (fdist (fg_per g) (fg_boxes g) p q).
Proof. intros g rs ps Q P s k GC GS R Ph St r Hr Hn. apply in_map_iff in Hr as ([x r1] & Er & Hr). cbn in Er. subst r1.
  destruct (results g rs ps Q P s k GC GS R) as (_ & _ & Rf). rewrite Rf. set (p := dr_pos (fstored (fg_per g) (fg_boxes g) r)).
  assert (E0 : Forall2 (fun x y => B2R x = B2R y) p p) by (induction p; constructor; auto).
  assert (E1 : Forall2 (fun x y => B2R x = B2R y) (norm_fpos p) p) by (unfold norm_fpos; clear; induction p as [|y l IH]; cbn; constructor; auto; apply drop_sign_val).
  destruct (refined_nodes g rs ps Q P s k GC GS R St (or_introl Ph) x r Hr Hn) as [H|(q & Hq & [H|H])].
  - exists p, (norm_fpos p). split; auto. split; [apply in_app_iff; auto|].
    assert (Gr : good_position (fg_boxes g) (dr_pos r)).
    { apply in_flat_map in Hr as (a & Ha & Hr). destruct a; cbn in Hr; try contradiction. destruct Hr as [[= -> ->]|[]]. apply in_split in Ha as (l1 & l2 & El). destruct (decisions g rs ps Q P s k GC GS R _ _ _ El) as (_ & W). apply fresh_pos; auto. apply (gf_boxes g GC). }
    assert (Gp : good_position (fg_boxes g) p) by (apply stored_good; auto; apply (gf_boxes g GC)).
    apply same_close; auto using (gf_boxes g GC), (gf_dim g GC), (gf_cutoff g GC).
    + apply good_drop. auto.
    + clear -E1. revert E1. generalize (norm_fpos p) as q. induction p as [|a p IH]; intros q E; inversion E; subst; constructor; auto.
  - exists p, q. auto.
  - exists (norm_fpos p), q. auto. Qed.
Print Assumptions C64_every_node_refined.

(** *** Bounded work *)
Theorem C64_refined_separated : forall g rs ps Q P s k, good_fconfig g -> good_fstart g s rs ps Q P -> freaches g s k ->
  fg_recheck g = true -> fg_count_cutoff g = 0%nat ->
  separated (fg_per g) (fg_boxes g) (fg_cutoff g) (frefined (fk_log k)) /\
  (forall p q, In p (frefined (fk_log k)) -> In q ps -> (reduced (fg_cutoff g) < B2R (fdist (fg_per g) (fg_boxes g) p q))%R).
Proof. intros g rs ps Q P s k GC GS R. apply (refined_separated g rs ps Q P s k GC GS R). Qed.
Print Assumptions C64_refined_separated.
Theorem C64_bounded_work : forall g rs ps Q P s k, good_fconfig g -> good_fstart g s rs ps Q P -> freaches g s k ->
  fg_recheck g = true -> fg_count_cutoff g = 0%nat -> Forall (fun b => (fbox_size b <= bpow radix2 42 * B2R (fg_cutoff g))%R) (fg_boxes g) ->
  let bound := fpacking_bound (fg_per g) (fg_boxes g) (fg_cutoff g) in
  (List.length (frefined (fk_log k)) <= bound)%nat /\
  (List.length (fstarted (fk_log k)) <= List.length Q + bound * match fg_stencil g with Some st => List.length st | None => 0 end)%nat.
Proof. intros g rs ps Q P s k GC GS R Rc Cc Sz bound.
  assert (B : (List.length (frefined (fk_log k)) <= bound)%nat).
  { pose proof (refined_refinable g rs ps Q P s k GC GS R) as F. apply fpacking; auto using (gf_boxes g GC), (gf_dim g GC), (gf_cutoff g GC).
    - eapply Forall_impl; [|exact F]. intros p Hp. apply refinable_pos; auto.
    - apply (refined_separated g rs ps Q P s k GC GS R); auto. }
  split; auto. pose proof (started_bound g rs ps Q P s k GC GS R) as X. pose proof (Nat.mul_le_mono_r _ _ (fstencil_size g) B). unfold fstencil_size in *. lia. Qed.
Print Assumptions C64_bounded_work.

(** *** Termination *)
Theorem C64_progress : forall g rs ps Q P s k, good_fconfig g -> good_fstart g s rs ps Q P -> freaches g s k ->
  forall pick k', (1 <= fg_parallel g)%nat -> fexceptions (fk_tasks k) = [] -> fstep g k (FTurn pick) = Some k' ->
    (1 <= frunning_now k')%nat \/ fk_phase k' = FDraining \/ (forall pick', exists k'', fstep g k' (FTurn pick') = Some k'' /\ fk_phase k'' = FDraining).
Proof. intros g rs ps Q P s k GC GS R pick k' Par E St. destruct (progress g rs ps Q P s k GC GS R pick k' Par E St) as (_ & _ & H).
  destruct (frunning_now k'); [right; apply H; auto|left; lia]. Qed.
Print Assumptions C64_progress.
Theorem C64_gather : forall g rs ps Q P s k, good_fconfig g -> good_fstart g s rs ps Q P -> freaches g s k ->
  fk_phase k = FDraining -> forall pick, exists k', fstep g k (FGather pick) = Some k' /\ fk_phase k' = FReturned /\ fk_state k' = fk_state k.
Proof. intros g rs ps Q P s k GC GS R Ph pick. apply (gather_immediate g rs ps Q P s k GC GS R); auto. Qed.
Print Assumptions C64_gather.
(** every fair run ends, periodic or not, whatever the checks are set to: there are only finitely
    many positions *)
Theorem C64_search_ends : forall g rs ps Q P s k ev, good_fconfig g -> good_fstart g s rs ps Q P -> ffair_run g s k ev ->
  (1 <= fg_parallel g)%nat -> exists i, fover (k i).
Proof. intros g rs ps Q P s k ev GC GS F Par. set (d := List.length (fg_boxes g)). set (B := Z.to_nat (2 ^ (65 * Z.of_nat d))).
  apply (ends g rs ps Q P s k ev GC GS F Par (List.length Q + B * fstencil_size g)%nat).
  intros i. pose proof (fair_reaches g s k ev F i) as R. pose proof (started_bound g rs ps Q P s (k i) GC GS R) as X.
  assert (L : (List.length (frefined (fk_log (k i))) <= B)%nat).
  { pose proof (refined_refinable g rs ps Q P s (k i) GC GS R) as Rf.
    assert (C : (Z.of_nat (List.length (frefined (fk_log (k i)))) <= 2 ^ (65 * Z.of_nat d))%Z); [|unfold B; lia].
    apply count_vectors; [apply (refined_nodup g rs ps Q P s (k i) GC GS R)|]. eapply Forall_impl; [|exact Rf]. intros p Hp. apply (refinable_pos g GC) in Hp. split; [exact (coords_fin _ _ Hp)|]. symmetry. exact (F2_length _ _ _ Hp). }
  pose proof (Nat.mul_le_mono_r _ _ (fstencil_size g) L). unfold nstarted. lia. Qed.
Print Assumptions C64_search_ends.

(** *** Failures *)
Theorem C64_failures_surface : forall g rs ps Q P s evs k, good_fconfig g -> good_fstart g s rs ps Q P ->
  Forall (valid_fevent (fg_boxes g)) evs -> frun_events g (fstart s) evs = Some k ->
  (forall i e, In (FFail i e) evs -> fk_phase k = FRunning \/ exists e', fk_phase k = FRaised e') /\
  (forall i e pick, In (FFail i e) evs -> fk_phase k = FRunning ->
     exists k' j e', fstep g k (FTurn pick) = Some k' /\ fk_phase k' = FRaised e' /\ In (FFail j e') evs) /\
  (forall e, fk_phase k = FRaised e -> exists i, In (FFail i e) evs).
Proof. intros g rs ps Q P s evs k GC GS V Rn. destruct (failures g rs ps Q P GC s evs k GS V Rn) as (A & B & C). auto. Qed.
Print Assumptions C64_failures_surface.

(** *** Which stencils *)
(** a stencil whose simplices are resolved by doubles of the size of the limits stays one when
    moved to any position that can be refined *)
Theorem C64_stencil_moved : forall per boxes st p, Forall good_box boxes -> resolved_stencil boxes st -> refinable per boxes p ->
  NoDup (map norm_fsimplex (ftranslate p st)) /\ Forall (Forall (good_position boxes)) (ftranslate p st).
Proof. exact stencil_moved. Qed.
Print Assumptions C64_stencil_moved.
(** finding: with a feature size below the spacing of doubles in the box, the simplices of the
    stencil coincide after they were moved; the same simplex is then minimized several times at
    once, more minimizations run than num_minimize_parallel allows, and the search ends with a
    KeyError *)
Theorem C64_tiny_feature_size_refuted : exists s k k2,
  fg_parallel tiny_g = 2%nat /\ Forall good_box (fg_boxes tiny_g) /\ good_cutoff (fg_cutoff tiny_g) /\
  fcreate_state (fg_per tiny_g) (fg_boxes tiny_g) (fg_gap tiny_g) (fg_cutoff tiny_g) (fun l => l) None tiny_mesh false = Ok s /\
  frun_events tiny_g (fstart s) tiny_events = Some k /\ frunning_now k = 3%nat /\
  frun_events tiny_g (fstart s) (tiny_events ++ [FDone 0 (ndf 3 (-1)); FDone 1 (ndf 3 (-1)); FTurn 0]) = Some k2 /\ fk_phase k2 = FRaised KeyError.
Proof. destruct (ex_run_inv _ _ _ _ tiny_over_limit) as (s & k & E & Rn & H). destruct (ex_run_inv _ _ _ _ tiny_keyerror) as (s2 & k2 & E2 & Rn2 & H2).
  rewrite E in E2. injection E2 as <-. exists s, k, k2. split; [reflexivity|]. destruct fone_val as (F1 & V1). destruct (of_dyadic_val 2 0 ltac:(lia) ltac:(lia)) as (Fh & Vh). destruct (of_dyadic_val 1 (-56) ltac:(lia) ltac:(lia)) as (Fc & Vc).
  assert (Sz : fsub (of_dyadic 2 0) fone = fone) by (apply B2SF_inj; vm_compute; reflexivity). change (bpow radix2 0) with 1%R in Vh.
  assert (L1 : (bpow radix2 (-400) <= bpow radix2 (-56))%R) by (apply bpow_le; lia). assert (L2 : (bpow radix2 (-56) <= bpow radix2 400)%R) by (apply bpow_le; lia).
  assert (L3 : (4 <= bpow radix2 400)%R) by (change 4%R with (bpow radix2 2); apply bpow_le; lia). assert (L4 : (bpow radix2 (-400) <= 1)%R) by (change 1%R with (bpow radix2 0); apply bpow_le; lia).
  split; [|split; [|split; [exact E|split; [exact Rn|split; [|split; [exact Rn2|]]]]]].
  - constructor; [|constructor]. unfold good_box, fbox_size. cbn [fst snd]. rewrite Sz, V1, Vh. split; [exact F1|]. split; [exact Fh|]. split; [lra|]. split; [apply Rabs_le; lra|]. split; [apply Rabs_le; lra|lra].
  - split; [exact Fc|]. unfold tiny_g. cbn [fg_cutoff]. rewrite Vc. lra.
  - unfold fsummary in H. pose proof (f_equal (hd 0%nat) H) as X. exact X.
  - unfold fsummary in H2. pose proof (f_equal (fun l => nth 6 l 0%nat) H2) as X. cbn [nth] in X. destruct (fk_phase k2) as [| | |e]; try discriminate. destruct e; try discriminate. reflexivity. Qed.
Print Assumptions C64_tiny_feature_size_refuted.

(** hypotheses met: a periodic search in [0, 1] with cutoff 1/4 and two minimizations in
    parallel; one run in which a minimization fails (and the next turn raises), one that returns
    after four minimizations and one refinement *)
Theorem C64_hypotheses_met : exists s k k2, good_fconfig (ex_fg 2) /\ good_fstart (ex_fg 2) s [] [] (map norm_fsimplex ex_mesh) [] /\
  resolved_stencil ex_boxes ex_stencil /\ fg_stencil (ex_fg 2) = Some ex_stencil /\
  Forall (fun b => (fbox_size b <= bpow radix2 42 * B2R (fg_cutoff (ex_fg 2)))%R) (fg_boxes (ex_fg 2)) /\
  Forall (valid_fevent ex_boxes) ex_events /\ frun_events (ex_fg 2) (fstart s) ex_events = Some k /\ In (FFail 1 KeyError) ex_events /\ fk_phase k = FRunning /\
  freaches (ex_fg 2) s k2 /\ fk_phase k2 = FReturned /\ List.length (frecorded (fk_log k2)) = 4%nat /\ List.length (frefined (fk_log k2)) = 1%nat /\
  exists ks ev, ffair_run (ex_fg 2) s ks ev.
Proof. destruct (ex_run_inv _ _ _ _ ex_failed) as (s & k & E & Rn & H). destruct (ex_run_inv _ _ _ _ ex_ended) as (s2 & k2 & E2 & Rn2 & H2).
  rewrite E in E2. injection E2 as <-. destruct ex_mesh_good as (M1 & M2). destruct (C64_fresh_start (ex_fg 2) (fun l => l) ex_mesh false (ex_fg_good 2) M1 M2) as (s' & E' & G & _). rewrite E in E'. injection E' as <-.
  exists s, k, k2. split; [apply ex_fg_good|]. split; [exact G|]. split; [apply ex_stencil_resolved|]. split; [reflexivity|]. split.
  { constructor; [|constructor]. rewrite (proj1 ex_size). cbn [fg_cutoff ex_fg]. unfold c62_quarter. rewrite (proj2 (of_dyadic_val 1 (-2) ltac:(lia) ltac:(lia))). change (bpow radix2 (-2)) with (/ 4)%R. assert (4 <= bpow radix2 42)%R by (change 4%R with (bpow radix2 2); apply bpow_le; lia). lra. }
  assert (V1 : Forall (valid_fevent ex_boxes) ex_events). { repeat (constructor; [cbn [valid_fevent]; try exact I; try (apply ex_event_good; lia)|]). constructor. }
  assert (V2 : Forall (valid_fevent ex_boxes) ex_events2). { repeat (constructor; [cbn [valid_fevent]; try exact I; try (apply ex_event_good; lia)|]). constructor. }
  split; [exact V1|]. split; [exact Rn|]. split; [cbn; auto 10|]. unfold fsummary in H, H2.
  pose proof (f_equal (fun l => nth 6 l 0%nat) H) as X. cbn [nth] in X. split; [destruct (fk_phase k) as [| | |[]]; try discriminate; reflexivity|].
  split; [exists ex_events2; split; [exact V2|exact Rn2]|].
  pose proof (f_equal (fun l => nth 6 l 0%nat) H2) as X2. cbn [nth] in X2. split; [destruct (fk_phase k2) as [| | |[]]; try discriminate; reflexivity|].
  split; [exact (f_equal (fun l => nth 2 l 0%nat) H2)|]. split; [exact (f_equal (fun l => nth 4 l 0%nat) H2)|].
  exists (fin_k (ex_fg 2) s (removelast ex_events2) 0), (fin_ev (removelast ex_events2) 0). apply finite_fair with (kf := k2); auto.
  - destruct (fk_phase k2) as [| | |[]]; try discriminate; reflexivity.
  - pose proof (f_equal (hd 1%nat) H2) as X3. cbn [hd] in X3. unfold frunning_now, funfinished in *. destruct (filter _ (fk_tasks k2)); [reflexivity|discriminate]. Qed.
Print Assumptions C64_hypotheses_met.
