(** Facts about whole searches in double precision, from the elementary steps (compare
    SearchFacts.v, SearchProps.v). *)
From Verif Require Import Base BaseFacts CoordSys CellList Queue QueueFacts SpecQueue.
From Coq Require Import ZArith Reals.
From Flocq Require Import Core BinarySingleNaN.
From Verif Require Import Float FloatFacts FloatVector NelderMead FloatMin FloatCell SpecFloatCell FloatCellNum FloatCellFacts PropFloatCell FloatCheck PropFloatCheck FloatController SpecFloatSearch FloatSearchFacts FloatSearchSteps.
From Coq Require Import Lra.
Open Scope list_scope.

(** ** Properties of logs *)
Definition logged (D : list faction -> faction -> Prop) (log : list faction) : Prop :=
  forall l1 a l2, log = l1 ++ a :: l2 -> D l1 a.
Lemma logged_nil D : logged D [].
Proof. intros [|? ?] ? ? E; discriminate. Qed.
Lemma logged_snoc D log a : logged D log -> D log a -> logged D (log ++ [a]).
Proof. intros L Da l1 b l2 E. destruct (exists_last (l := b :: l2)) as (m & c & Em); [discriminate|].
  rewrite Em, app_assoc in E. apply app_inj_tail in E as [E ->]. destruct m as [|b' m].
  - rewrite app_nil_r in E. subst l1. injection Em as ->. auto.
  - injection Em as -> _. eapply L. eauto. Qed.

Lemma popped_perm l : Permutation (popped l) (fstarted l ++ fdiscarded l).
Proof. induction l as [|a l IH]; [constructor|]. destruct a; cbn; auto. rewrite IH. apply Permutation_middle. Qed.
Lemma ended_perm l : Permutation (ended l) (map fst (frecorded l) ++ fdiscarded l).
Proof. induction l as [|a l IH]; [constructor|]. destruct a; cbn; auto. rewrite IH. apply Permutation_middle. Qed.
Lemma nodup_app_l {A} (l m : list A) : NoDup (l ++ m) -> NoDup l.
Proof. induction l as [|a l IH]; cbn; intros N; [constructor|]. inversion N; subst. constructor; auto. rewrite in_app_iff in *. tauto. Qed.
Lemma nodup_app_disj {A} (l m : list A) x : NoDup (l ++ m) -> In x l -> In x m -> False.
Proof. induction l as [|a l IH]; cbn; intros N H H'; [auto|]. inversion N; subst. destruct H as [<- |H]; [|eauto]. rewrite in_app_iff in *. tauto. Qed.

Lemma frecheck_any c k : forall ds, frecheck_loop c 0 0 ds = true -> frecheck_loop c k 0 ds = true.
Proof. induction ds as [|d ds IH]; cbn [frecheck_loop]; auto. destruct (flt d c); cbn.
  - discriminate.
  - destruct k; cbn; auto. Qed.

Section Facts.
  Variables (g : fconfig) (rs0 : list dmin_result) (ps0 : list fpoint) (Q0 : list fsimplex) (P0 : list fpoint).
  Hypothesis GC : good_fconfig g.
  Let boxes := fg_boxes g.
  Let per := fg_per g.
  Notation inv := (inv g rs0 ps0 Q0 P0).

  Definition results_at (l : list faction) : list dmin_result := rs0 ++ map snd (frecorded l).
  Definition refined_at (l : list faction) : list fpoint := ps0 ++ frefined l.
  Definition far (p q : fpoint) : Prop := (reduced (fg_cutoff g) < B2R (fdist per boxes p q))%R.
  Definition close (p q : fpoint) : Prop := less (fg_cutoff g) (fdist per boxes p q).
  Definition near_node (rs : list dmin_result) (v : fpoint) : Prop := node_at per boxes (fg_gap g) rs v (less (fg_cutoff g)).
  Definition very_near_node (rs : list dmin_result) (v : fpoint) : Prop := node_at per boxes (fg_gap g) rs v (fun d => (B2R d <= reduced (fg_cutoff g))%R).
  Definition fnormed (r : dmin_result) : fpoint := dr_pos (fstored per boxes r).

  (** why each action was taken, given what had happened before *)
  Definition decided (l : list faction) (a : faction) : Prop :=
    match a with
    | FStart s => ~ at_least (very_near_node (results_at l)) (S (fg_simplex_cutoff g)) s
    | FDiscard s => at_least (near_node (results_at l)) (S (fg_simplex_cutoff g)) s
    | FRecord s r => In s (fstarted l) /\ fwithin 9 boxes (dr_pos r)
    | FRefine p => refinable per boxes p /\ (fg_recheck g = true -> fg_count_cutoff g = 0%nat -> forall q, In q (refined_at l) -> far p q)
    | FSkip p => fg_recheck g = true /\ (exists q, In q (refined_at l) /\ close p q)
    | FQueue p => exists l' s r, l = l' ++ [FRecord s r] /\ is_fnode (fg_gap g) r = true /\ p = norm_fpos (fnormed r) /\
        forall q, In q (refined_at l') -> far (fnormed r) q
    end.

  Lemma running_started x sx : inv x -> In sx (q_running (fs_simplex (fst (fst x)))) -> In sx (fstarted (snd x)).
  Proof. intros I H. pose proof (q_inv_running_nodup (i_q _ _ _ _ _ _ I)) as N.
    assert (P : In sx (popped (snd x))). { eapply Permutation_in; [apply (qi_run (i_q _ _ _ _ _ _ I))|]. apply in_app_iff. auto. }
    apply (Permutation_in _ (popped_perm _)) in P. apply in_app_iff in P as [P|P]; auto.
    exfalso. eapply nodup_app_disj; [exact N|exact H|]. eapply Permutation_in; [symmetry; apply ended_perm|]. apply in_app_iff. auto. Qed.

  Lemma refinable_pos p : refinable per boxes p -> good_position boxes p.
  Proof. intros Hp. apply (refined_coords per boxes p (gf_boxes g GC) (refinable_good g p (gf_boxes g GC) Hp)). Qed.
  Lemma inv_simplex_rule x sx b : inv x -> In sx (Q0 ++ frefinements g (snd x)) ->
    fcheck_simplex (fs_result (fst (fst x))) (fg_cutoff g) (fg_simplex_cutoff g) sx = Ok b ->
    if b : bool then ~ at_least (very_near_node (results_at (snd x))) (S (fg_simplex_cutoff g)) sx
    else at_least (near_node (results_at (snd x))) (S (fg_simplex_cutoff g)) sx.
  Proof. intros I H E. pose proof (i_verts _ _ _ _ _ _ I) as V. rewrite Forall_forall in V.
    destruct (C63_simplex_rule per boxes (fg_gap g) (fg_cutoff g) _ _ _ (fg_simplex_cutoff g) sx (i_hist _ _ _ _ _ _ I) (V _ H)) as [(E' & N)|(E' & Y)]; rewrite E in E'; injection E' as ->; auto. Qed.

  Lemma check_pos_near x k p : inv x -> refinable per boxes p -> fcheck_pos_refinement (fs_result (fst (fst x))) (fg_cutoff g) k p = Ok false ->
    exists q, In q (refined_at (snd x)) /\ close p q.
  Proof. intros I Hp E. destruct (C63_refinement_check per boxes (fg_gap g) (fg_cutoff g) _ _ _ p (i_hist _ _ _ _ _ _ I) (refinable_pos p Hp)) as [(E' & _)|(_ & Y)]; auto.
    exfalso. unfold fcheck_pos_refinement in *. destruct (frefined_distances (fs_result (fst (fst x))) p) as [ds|]; [|discriminate]. cbn [bind] in *.
    injection E as E. injection E' as E'. apply (frecheck_any _ k) in E'. congruence. Qed.

  Lemma queued_known x sx : inv x -> In sx (q_queued (fs_simplex (fst (fst x)))) -> In sx (Q0 ++ frefinements g (snd x)).
  Proof. intros I H. pose proof (qi_order (i_q _ _ _ _ _ _ I)) as O. apply (proj1 (first_occ_in [] _ sx)). rewrite <- O. apply in_app_iff. auto. Qed.

  Lemma record_check x r c d : inv x -> fwithin 9 boxes (dr_pos r) -> fadd_result (fs_result (fst (fst x))) r = Ok (c, true) ->
    fcheck_pos_refinement c (fg_cutoff g) 0 (map2 (fnormalize1 (fc_per c)) (fc_boxes c) (dr_pos r)) = Ok d ->
    map2 (fnormalize1 (fc_per c)) (fc_boxes c) (dr_pos r) = fnormed r /\
    if d : bool then forall q, In q (refined_at (snd x)) -> far (fnormed r) q else exists q, In q (refined_at (snd x)) /\ close (fnormed r) q.
  Proof. intros I Hr Ea Ed. destruct (rel_total g rs0 ps0 Q0 P0 _ I r (fresh_pos g _ (gf_boxes g GC) Hr)) as (c' & Ea' & Hh). rewrite Ea in Ea'. injection Ea' as <- _.
    destruct (rel_boxes g _ _ _ Hh) as (Ep & Ebx). rewrite Ep, Ebx in *. split; [reflexivity|].
    assert (Gp : good_position boxes (fnormed r)) by (apply (stored_good per boxes r); [apply (gf_boxes g GC)|apply (fresh_pos g _ (gf_boxes g GC) Hr)]).
    destruct (C63_refinement_check per boxes (fg_gap g) (fg_cutoff g) _ _ _ (fnormed r) Hh Gp) as [(E & X)|(E & X)]; change (fnormed r) with (map2 (fnormalize1 (fg_per g)) (fg_boxes g) (dr_pos r)) in E; rewrite Ed in E; injection E as ->; auto. Qed.
  Lemma add_node x r c b : inv x -> fwithin 9 boxes (dr_pos r) -> fadd_result (fs_result (fst (fst x))) r = Ok (c, b) -> b = is_fnode (fg_gap g) r.
  Proof. intros I Hr Ea. destruct (rel_total g rs0 ps0 Q0 P0 _ I r (fresh_pos g _ (gf_boxes g GC) Hr)) as (c' & Ea' & _). rewrite Ea in Ea'. injection Ea' as _ ->. reflexivity. Qed.
  Lemma micro_decided x y : inv x -> micro g x y -> logged decided (snd x) -> logged decided (snd y).
  Proof. intros I M L. inversion M; subst; cbn [fst snd] in *; auto.
    - destruct (pop_object_inv _ _ _ H0) as (E1 & _). pose proof (i_pos _ _ _ _ _ _ I) as F. cbn [fst] in F. rewrite E1 in F. inversion F as [|? ? Hp _]; subst.
      apply logged_snoc; auto. split; auto. eapply (check_pos_near _ _ _ I); eauto.
    - destruct (pop_object_inv _ _ _ H0) as (E1 & _). pose proof (i_pos _ _ _ _ _ _ I) as F. cbn [fst] in F. rewrite E1 in F. inversion F as [|? ? Hp _]; subst.
      apply logged_snoc; auto. split; auto. intros G Z. specialize (H1 G). rewrite Z in H1.
      destruct (C63_refinement_check per boxes (fg_gap g) (fg_cutoff g) _ _ _ pos (i_hist _ _ _ _ _ _ I) (refinable_pos pos Hp)) as [(_ & X)|(E & _)]; [exact X|]. cbn [fst] in E. congruence.
    - apply logged_snoc; auto. destruct (pop_running_inv _ _ _ H0) as (E1 & _).
      apply (inv_simplex_rule _ sx true I); auto. apply (queued_known _ _ I). cbn. rewrite E1. left. auto.
    - apply logged_snoc; auto. destruct (pop_running_inv _ _ _ H0) as (E1 & _).
      apply (inv_simplex_rule _ sx false I); auto. apply (queued_known _ _ I). cbn. rewrite E1. left. auto.
    - assert (Hs : In sx (fstarted log)). { apply (running_started _ _ I). cbn. eapply Permutation_in; [apply (i_tasks _ _ _ _ _ _ I)|]. cbn. eapply in_open_pending; eauto. }
      unfold after_result. destruct (b && d)%bool eqn:BD; cbn [snd].
      + apply andb_true_iff in BD as [-> ->].
        apply logged_snoc; [apply logged_snoc; auto; split; auto|]. exists log, sx, r. split; auto.
        assert (Ed : fcheck_pos_refinement c (fg_cutoff g) 0 (map2 (fnormalize1 (fc_per c)) (fc_boxes c) (dr_pos r)) = Ok true) by (apply H2; auto; intros N; apply H3 in N; discriminate).
        split; [symmetry; apply (add_node _ _ _ _ I H0 H1)|]. destruct (record_check _ _ _ _ I H0 H1 Ed) as (-> & X). auto.
      + apply logged_snoc; auto. split; auto. Qed.

  (** every node found is scheduled for refinement or is already near a frefined
      position *)
  Definition nodes_handled (x : mstate) : Prop := fg_stencil g <> None ->
    forall s r, In (s, r) (frecorded (snd x)) -> is_fnode (fg_gap g) r = true ->
    In (norm_fpos (fnormed r)) (fto_refine (snd x)) \/ exists q, In q (refined_at (snd x)) /\ close (fnormed r) q.

  Lemma refined_at_mono log a q : In q (refined_at log) -> In q (refined_at (log ++ [a])).
  Proof. unfold refined_at. proj. rewrite !in_app_iff. tauto. Qed.
  Lemma micro_handled x y : inv x -> micro g x y -> nodes_handled x -> nodes_handled y.
  Proof. intros I M L St s r Hr Hn.
    assert (Old : In (s, r) (frecorded (snd x)) -> (forall p, In p (fto_refine (snd x)) -> In p (fto_refine (snd y))) -> (forall q, In q (refined_at (snd x)) -> In q (refined_at (snd y))) ->
      In (norm_fpos (fnormed r)) (fto_refine (snd y)) \/ exists q, In q (refined_at (snd y)) /\ close (fnormed r) q).
    { intros H A B. destruct (L St s r H Hn) as [X|(q & X & Y)]; [left; auto|right; exists q; auto]. }
    inversion M; subst; cbn [fst snd] in *; auto.
    1-4: apply Old; [proj; auto|intros p Hp; proj; auto|intros q9 Hq; apply refined_at_mono; auto].
    unfold after_result in *. pose proof (add_node _ _ _ _ I H0 H1) as Eb.
    destruct (b && d)%bool eqn:BD; cbn [snd] in *; proj; unfold refined_at in *; proj; rewrite ?app_nil_r in *.
    - apply andb_true_iff in BD as [-> ->]. assert (Ed : fcheck_pos_refinement c (fg_cutoff g) 0 (map2 (fnormalize1 (fc_per c)) (fc_boxes c) (dr_pos r0)) = Ok true) by (apply H2; auto).
      destruct (record_check _ _ _ _ I H0 H1 Ed) as (EE & _). rewrite EE in *. apply in_app_iff in Hr as [Hr|[Hr|[]]].
      + apply Old; auto. intros p X. apply in_app_iff. auto.
      + injection Hr as <- <-. left. apply in_app_iff. right. left. auto.
    - apply in_app_iff in Hr as [Hr|[Hr|[]]].
      + apply Old; auto.
      + injection Hr as <- <-. right. rewrite Hn in Eb. subst b. cbn in BD. subst d. specialize (H2 eq_refl St). destruct (record_check _ _ _ _ I H0 H1 H2) as (_ & X). exact X. Qed.

  (** ** Reachable states *)
  Definition kinv (k : fctrl) : Prop := logged decided (fk_log k) /\ nodes_handled (mst k) /\
    match fk_phase k with
    | FRunning => True
    | FDraining | FReturned => fk_tasks k = [] /\ floop_condition (fk_state k) = false
    | FRaised e => In e (fexceptions (fk_tasks k))
    end.

  Lemma micros_kinv x y : inv x -> FloatSearchFacts.micros g x y -> logged decided (snd x) -> nodes_handled x -> logged decided (snd y) /\ nodes_handled y.
  Proof. intros I M. induction M; auto. intros. apply IHM; [eapply micro_inv; eauto|eapply micro_decided; eauto|eapply micro_handled; eauto]. Qed.

  Lemma exceptions_set_status i st tasks sx e : nth_error tasks i = Some (mk_ftask sx FPending) -> In e (fexceptions tasks) -> In e (fexceptions (fset_status i st tasks)).
  Proof. revert i. induction tasks as [|t ts IH]; intros [|i] E H; cbn in *; try discriminate.
    - injection E as ->. cbn in H. apply in_app_iff. auto.
    - apply in_app_iff in H. apply in_app_iff. destruct H; eauto. Qed.

  Lemma loop_condition_open x : inv x -> floop_condition (fst (fst x)) = false ->
    q_queued (fs_simplex (fst (fst x))) = [] /\ q_running (fs_simplex (fst (fst x))) = [] /\ q_queued (fs_position (fst (fst x))) = [] /\ open_simplices (snd (fst x)) = [].
  Proof. intros I E. unfold floop_condition, finished, objects in E. apply orb_false_iff in E as [E1 E2]. apply negb_false_iff in E1.
    destruct (q_running (fs_simplex (fst (fst x)))) as [|a l] eqn:R; [|discriminate]. cbn in E1.
    destruct (q_queued (fs_simplex (fst (fst x)))); [|discriminate]. unfold has_queued in E2. destruct (q_queued (fs_position (fst (fst x)))); [|discriminate].
    repeat split; auto. pose proof (i_tasks _ _ _ _ _ _ I) as P. rewrite R in P. apply Permutation_sym, Permutation_nil in P. auto. Qed.
  Lemma open_none_pending tasks : open_simplices tasks = [] -> fpending tasks = [].
  Proof. unfold open_simplices, fpending. induction tasks as [|[sx [| |e]] ts IH]; cbn; try discriminate; auto. Qed.
  Lemma pending_nth tasks i sx : nth_error tasks i = Some (mk_ftask sx FPending) -> tasks <> [].
  Proof. destruct tasks, i; discriminate. Qed.

  Lemma step_kinv k ev k' : inv (mst k) -> kinv k -> valid_fevent boxes ev -> fstep g k ev = Some k' -> kinv k'.
  Proof. intros I (KL & KN & KP) V S.
    assert (L : logged decided (fk_log k') /\ nodes_handled (mst k')).
    { pose proof (step_ok _ _ _ _ _ GC _ _ _ I V S) as M. change (fk_log k') with (snd (mst k')). eapply micros_kinv; eauto. }
    destruct L as [L1 L2]. split; auto. split; auto. clear L1 L2.
    destruct ev as [pick|i r|i e| |pick]; cbn [fstep] in S.
    - destruct (fk_phase k) eqn:Ph; try discriminate. injection S as <-.
      pose proof (turn_ok _ _ _ _ _ GC k pick I) as H. destruct (fexceptions (fk_tasks k)) eqn:E.
      + destruct H as (_ & _ & H). destruct (floop_condition (fk_state k)) eqn:LC; destruct H as (H1 & H2); rewrite H1; auto.
        destruct H2 as (H2 & H3 & H4). rewrite H2, H4. split; auto. apply open_none_pending. apply (loop_condition_open _ I LC).
      + destruct H as (e0 & H1 & H2 & H3). rewrite H2. pose proof (f_equal (fun x : mstate => snd (fst x)) H3) as H4. cbn in H4. rewrite H4, E. auto.
    - destruct (nth_error (fk_tasks k) i) as [[sx [| |e]]|] eqn:E; try discriminate. injection S as <-.
      destruct (finish_ok _ _ _ _ _ GC k i sx r I V E) as (M & H1 & H2). rewrite H1, H2.
      destruct (fk_phase k); auto; try (destruct KP as [KP _]; apply pending_nth in E; contradiction). eapply exceptions_set_status; eauto.
    - destruct (nth_error (fk_tasks k) i) as [[sx [| |e']]|] eqn:E; try discriminate. injection S as <-. cbn.
      destruct (fk_phase k); auto; try (destruct KP as [KP _]; apply pending_nth in E; contradiction). eapply exceptions_set_status; eauto.
    - injection S as <-. auto.
    - destruct (fk_phase k) eqn:Ph; try discriminate. destruct (fpending (fk_tasks k)); [|discriminate]. injection S as <-. cbn.
      destruct KP as [KP KC]. rewrite KP. cbn. auto. Qed.

  Lemma reach_kinv s k : good_fstart g s rs0 ps0 Q0 P0 -> freaches g s k -> inv (mst k) /\ kinv k.
  Proof. intros GS R. apply (reach_ind g rs0 ps0 Q0 P0 GC kinv s); auto.
    - split; [apply logged_nil|]. split; [intros _ ? ? []|exact Logic.I].
    - intros. eapply step_kinv; eauto. Qed.
End Facts.
