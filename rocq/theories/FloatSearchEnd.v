(** Failed minimizations, and: every fair run with a bounded number of minimizations ends
    (compare SearchRestart.v, SearchEnd.v). *)
From Verif Require Import Base BaseFacts CoordSys CellList Queue QueueFacts SpecQueue.
From Coq Require Import ZArith Reals.
From Flocq Require Import Core BinarySingleNaN.
From Verif Require Import Float FloatFacts FloatVector NelderMead FloatMin FloatCell SpecFloatCell FloatCellNum FloatCellFacts PropFloatCell FloatCheck PropFloatCheck FloatController SpecFloatSearch FloatSearchFacts FloatSearchSteps FloatSearchLog FloatSearchProps.
Open Scope list_scope.

Section Failures.
  Variables (g : fconfig) (rs : list dmin_result) (ps : list fpoint) (Q : list fsimplex) (P : list fpoint).
  Hypothesis GC : good_fconfig g.
  Notation inv := (inv g rs ps Q P).

  Lemma step_exceptions k ev k' : inv (mst k) -> valid_fevent (fg_boxes g) ev -> fstep g k ev = Some k' ->
    (forall e, In e (fexceptions (fk_tasks k)) -> In e (fexceptions (fk_tasks k'))) /\
    (forall e, In e (fexceptions (fk_tasks k')) -> In e (fexceptions (fk_tasks k)) \/ exists i, ev = FFail i e) /\
    (forall i e, ev = FFail i e -> In e (fexceptions (fk_tasks k'))).
  Proof. intros I V S.
    assert (New : forall tasks i st sx e, nth_error tasks i = Some (mk_ftask sx FPending) -> In e (fexceptions (fset_status i st tasks)) -> In e (fexceptions tasks) \/ st = FFailed e).
    { clear. induction tasks as [|t ts IH]; intros [|i] st sx e E H; cbn in *; try discriminate.
      - injection E as ->. apply in_app_iff in H as [H|H]; [right|left; auto]. cbn in H. destruct st; try contradiction. destruct H as [-> |[]]. auto.
      - apply in_app_iff in H as [H|H]; [left; apply in_app_iff; auto|]. destruct (IH i st sx e E H); auto. left. apply in_app_iff. auto. }
    assert (Set' : forall tasks i sx e, nth_error tasks i = Some (mk_ftask sx FPending) -> In e (fexceptions (fset_status i (FFailed e) tasks))).
    { clear. induction tasks as [|t ts IH]; intros [|i] sx e E; cbn in *; try discriminate; [left; auto|]. apply in_app_iff. right. eauto. }
    destruct ev as [pick|i r|i e| |pick]; cbn [fstep] in S.
    - destruct (fk_phase k) eqn:Ph; try discriminate. injection S as <-. pose proof (turn_ok _ _ _ _ _ GC k pick I) as H. destruct (fexceptions (fk_tasks k)) eqn:E.
      + destruct H as (_ & H & _). rewrite H. repeat split; auto; try discriminate.
      + destruct H as (e0 & _ & _ & H). pose proof (f_equal (fun x : mstate => snd (fst x)) H) as H'. cbn in H'. rewrite H', E. repeat split; auto; discriminate.
    - destruct (nth_error (fk_tasks k) i) as [[sx [| |e]]|] eqn:E; try discriminate. injection S as <-.
      destruct (finish_ok _ _ _ _ _ GC k i sx r I V E) as (_ & _ & ->). repeat split; try discriminate.
      + intros e. eapply exceptions_set_status; eauto.
      + intros e H. destruct (New _ _ _ _ _ E H); auto. discriminate.
    - destruct (nth_error (fk_tasks k) i) as [[sx [| |e']]|] eqn:E; try discriminate. injection S as <-. cbn. repeat split.
      + intros e0. eapply exceptions_set_status; eauto.
      + intros e0 H. destruct (New _ _ _ _ _ E H) as [|[= <-]]; eauto.
      + intros i0 e0 [= <- <-]. eapply Set'; eauto.
    - injection S as <-. repeat split; auto; discriminate.
    - destruct (fk_phase k); try discriminate. destruct (fpending (fk_tasks k)); [|discriminate]. injection S as <-. cbn. repeat split; auto; discriminate. Qed.

  Lemma run_exceptions evs : forall k k', inv (mst k) -> Forall (valid_fevent (fg_boxes g)) evs -> frun_events g k evs = Some k' ->
    (forall e, In e (fexceptions (fk_tasks k)) -> In e (fexceptions (fk_tasks k'))) /\
    (forall e, In e (fexceptions (fk_tasks k')) -> In e (fexceptions (fk_tasks k)) \/ exists i, In (FFail i e) evs) /\
    (forall i e, In (FFail i e) evs -> In e (fexceptions (fk_tasks k'))).
  Proof. induction evs as [|ev evs IH]; intros k k' I V R; cbn [frun_events] in R.
    - injection R as <-. repeat split; auto. intros i e [].
    - inversion V as [|? ? Hv Hvs]; subst. destruct (fstep g k ev) as [k1|] eqn:S; [|discriminate].
      destruct (step_exceptions _ _ _ I Hv S) as (A & B & C). destruct (IH k1 k' (step_inv _ _ _ _ _ GC _ _ _ I Hv S) Hvs R) as (A' & B' & C').
      repeat split; auto.
      + intros e H. destruct (B' e H) as [X|(i & X)]; [|right; exists i; right; auto]. destruct (B e X) as [|(i & ->)]; [auto|]. right. exists i. left. auto.
      + intros i e [-> |H]; eauto. Qed.

  Lemma failures s evs k : good_fstart g s rs ps Q P -> Forall (valid_fevent (fg_boxes g)) evs -> frun_events g (fstart s) evs = Some k ->
    (forall e, fk_phase k = FRaised e -> exists i, In (FFail i e) evs) /\
    (forall i e, In (FFail i e) evs -> fk_phase k = FRunning \/ exists e', fk_phase k = FRaised e') /\
    (forall i e pick, In (FFail i e) evs -> fk_phase k = FRunning -> exists k' j e', fstep g k (FTurn pick) = Some k' /\ fk_phase k' = FRaised e' /\ In (FFail j e') evs).
  Proof. intros GS V Rn. assert (R : freaches g s k) by (exists evs; auto).
    destruct (reach_kinv g rs ps Q P GC s k GS R) as (I & (_ & _ & KP)).
    destruct (run_exceptions evs _ _ (start_inv g rs ps Q P GC s GS) V Rn) as (_ & B & C).
    assert (B' : forall e, In e (fexceptions (fk_tasks k)) -> exists i, In (FFail i e) evs) by (intros e H; destruct (B e H) as [[]|X]; auto).
    split; [|split].
    - intros e Ph. rewrite Ph in KP. auto.
    - intros i e H. apply C in H. destruct (fk_phase k) eqn:Ph; eauto; destruct KP as [KP _]; rewrite KP in H; destruct H.
    - intros i e pick H Ph. apply C in H.
      destruct (failure_surfaces g rs ps Q P s k GC GS R pick Ph) as (k' & e' & S & Ph' & He & _).
      + intros X. rewrite X in H. destruct H.
      + destruct (B' e' He) as (j & Hj). exists k', j, e'. auto. Qed.
End Failures.

Section Fair.
  Variables (g : fconfig) (rs : list dmin_result) (ps : list fpoint) (Q : list fsimplex) (P : list fpoint).
  Variables (s : fstate) (k : nat -> fctrl) (ev : nat -> fevent).
  Hypothesis GC : good_fconfig g.
  Hypothesis GS : good_fstart g s rs ps Q P.
  Hypothesis F : ffair_run g s k ev.
  Hypothesis Par : (1 <= fg_parallel g)%nat.

  Lemma fair_reaches i : freaches g s (k i).
  Proof. induction i as [|i (evs & V & R)].
    - exists []. split; auto. cbn. rewrite (ffr_start _ _ _ _ F). reflexivity.
    - destruct (ffr_step _ _ _ _ F i) as [Vi Si]. exists (evs ++ [ev i]). split; [apply Forall_app; auto|].
      clear -R Si. revert R. generalize (fstart s) as k0. induction evs as [|e evs IH]; cbn; intros k0 R.
      + injection R as ->. rewrite Si. reflexivity.
      + destruct (fstep g k0 e); [auto|discriminate]. Qed.
  Let I i : inv g rs ps Q P (mst (k i)) := proj1 (reach_kinv g rs ps Q P GC s (k i) GS (fair_reaches i)).

  Lemma micro_log x y : micro g x y -> exists l, snd y = snd x ++ l.
  Proof. intros M. inversion M; subst; cbn [snd]; try (eexists; reflexivity); try (exists []; rewrite app_nil_r; reflexivity).
    unfold after_result. destruct (_ && _)%bool; cbn [snd]; rewrite <- ?app_assoc; eexists; reflexivity. Qed.
  Lemma micros_log x y : micros g x y -> exists l, snd y = snd x ++ l.
  Proof. induction 1 as [x|x y z M Ms (l & E)]; [exists []; rewrite app_nil_r; auto|]. destruct (micro_log _ _ M) as (l' & E').
    exists (l' ++ l). rewrite E, E', app_assoc. reflexivity. Qed.
  Lemma log_step i : exists l, fk_log (k (Datatypes.S i)) = fk_log (k i) ++ l.
  Proof. destruct (ffr_step _ _ _ _ F i) as [Vi Si]. exact (micros_log _ _ (step_ok _ _ _ _ _ GC _ _ _ (I i) Vi Si)). Qed.
  Lemma log_le i j : (i <= j)%nat -> exists l, fk_log (k j) = fk_log (k i) ++ l.
  Proof. induction 1 as [|j L (l & E)]; [exists []; rewrite app_nil_r; auto|]. destruct (log_step j) as (l' & E'). exists (l ++ l'). rewrite E', E, app_assoc. reflexivity. Qed.

  Definition nstarted i : nat := List.length (fstarted (fk_log (k i))).
  Lemma nstarted_le i j : (i <= j)%nat -> (nstarted i <= nstarted j)%nat /\ (nstarted i = nstarted j -> fstarted (fk_log (k i)) = fstarted (fk_log (k j))).
  Proof. intros L. destruct (log_le i j L) as (l & E). unfold nstarted. rewrite E. unfold fstarted. rewrite flat_map_app, app_length. split; [lia|].
    intros X. assert (Z : flat_map (fun a => match a with FStart s0 => [s0] | _ => [] end) l = []) by (destruct (flat_map _ l); cbn in X; [auto|lia]). rewrite Z, app_nil_r. auto. Qed.

  Lemma exceptions_le i j : (i <= j)%nat -> fexceptions (fk_tasks (k i)) <> [] -> fexceptions (fk_tasks (k j)) <> [].
  Proof. induction 1 as [|j L IH]; auto. intros E. specialize (IH E). destruct (ffr_step _ _ _ _ F j) as [Vi Si].
    destruct (step_exceptions g rs ps Q P GC _ _ _ (I j) Vi Si) as (A & _). destruct (fexceptions (fk_tasks (k j))) as [|e es]; [congruence|].
    specialize (A e (or_introl eq_refl)). destruct (fexceptions (fk_tasks (k (Datatypes.S j)))); [destruct A|discriminate]. Qed.

  Lemma unfinished_open i : fexceptions (fk_tasks (k i)) = [] -> funfinished (k i) = fin_flight (k i).
  Proof. unfold funfinished, fin_flight, fexceptions. induction (fk_tasks (k i)) as [|[sx [| |e]] ts IH]; cbn; auto; try discriminate. intros E. f_equal. auto. Qed.
  Lemma unfinished_sub i : incl (funfinished (k i)) (fin_flight (k i)).
  Proof. intros x. unfold funfinished, fin_flight. rewrite !in_map_iff. intros (t & <- & H). exists t. split; auto. apply filter_In in H as [H X]. apply filter_In. split; auto. destruct (ft_status t); auto. Qed.
  Lemma in_flight_nodup i : NoDup (fin_flight (k i) ++ map fst (frecorded (fk_log (k i)))).
  Proof. eapply Permutation_NoDup; [apply (started_split g rs ps Q P s (k i) GC GS (fair_reaches i))|]. apply (started_nodup g rs ps Q P s (k i) GC GS (fair_reaches i)). Qed.
  Lemma unfinished_nodup i : NoDup (funfinished (k i)).
  Proof. pose proof (in_flight_nodup i) as N. apply nodup_app_l in N. revert N. unfold funfinished, fin_flight.
    induction (fk_tasks (k i)) as [|[sx [| |e]] ts IH]; cbn; auto; intros N; [|inversion N; subst; auto].
    inversion N as [|? ? Hx N']; subst. constructor; auto. intros X. apply Hx. clear -X. rewrite in_map_iff in *. destruct X as (t & E & X). exists t. split; auto.
    apply filter_In in X as [X Y]. apply filter_In. split; auto. destruct (ft_status t); auto. Qed.
  Lemma unfinished_shrinks i j : (i <= j)%nat -> nstarted i = nstarted j -> fexceptions (fk_tasks (k i)) = [] -> incl (funfinished (k j)) (funfinished (k i)).
  Proof. intros L E Ex x Hx. rewrite unfinished_open by auto. apply unfinished_sub in Hx.
    assert (Hs : In x (fstarted (fk_log (k j)))). { eapply Permutation_in; [symmetry; apply (started_split g rs ps Q P s (k j) GC GS (fair_reaches j))|]. apply in_app_iff. auto. }
    rewrite <- (proj2 (nstarted_le i j L) E) in Hs. apply (Permutation_in _ (started_split g rs ps Q P s (k i) GC GS (fair_reaches i))) in Hs.
    apply in_app_iff in Hs as [Hs|Hs]; auto. exfalso. eapply nodup_app_disj; [apply (in_flight_nodup j)|exact Hx|].
    destruct (log_le i j L) as (l & El). rewrite El. unfold frecorded. rewrite flat_map_app, map_app. apply in_app_iff. auto. Qed.

  (** the three ways to the end *)
  Lemma over_draining i : fk_phase (k i) = FDraining -> exists j, (i <= j)%nat /\ fover (k j).
  Proof. intros Ph. destruct (ffr_gather _ _ _ _ F i Ph) as (j & pick & L & E). exists (Datatypes.S j). split; [lia|].
    destruct (ffr_step _ _ _ _ F j) as [_ Si]. rewrite E in Si. cbn in Si. destruct (fk_phase (k j)); try discriminate. destruct (fpending _); [|discriminate].
    injection Si as <-. unfold fover. cbn. destruct (fsome_exception _ _); eauto. Qed.
  Lemma not_running i : fk_phase (k i) <> FRunning -> exists j, (i <= j)%nat /\ fover (k j).
  Proof. intros N. destruct (fk_phase (k i)) eqn:Ph; [congruence|apply over_draining; auto| |]; exists i; (split; [lia|]); unfold fover; eauto. Qed.
  Lemma next_turn i : (exists j, (i <= j)%nat /\ fover (k j)) \/
    exists j pick, (i <= j)%nat /\ ev j = FTurn pick /\ fk_phase (k j) = FRunning.
  Proof. destruct (fk_phase (k i)) eqn:Ph; [|left; apply not_running; congruence..].
    destruct (ffr_turn _ _ _ _ F i Ph) as (j & pick & L & E). destruct (fk_phase (k j)) eqn:Pj.
    1: { right. exists j, pick. repeat split; auto. }
    all: left; destruct (not_running j ltac:(congruence)) as (m & Lm & O); exists m; split; [lia|auto]. Qed.
  Lemma over_exceptions i : fexceptions (fk_tasks (k i)) <> [] -> exists j, (i <= j)%nat /\ fover (k j).
  Proof. intros E. destruct (next_turn i) as [X|(j & pick & L & Ej & Pj)]; auto.
    destruct (failure_surfaces g rs ps Q P s (k j) GC GS (fair_reaches j) pick Pj (exceptions_le _ _ L E)) as (k' & e & St & Ph & _).
    destruct (ffr_step _ _ _ _ F j) as [_ Si]. rewrite Ej in Si. rewrite Si in St. injection St as <-. exists (Datatypes.S j). split; [lia|]. right. eauto. Qed.

  Definition done_soon (x : fctrl) : Prop := fexceptions (fk_tasks x) = [] /\ funfinished x = [] /\ floop_condition (fk_state x) = false.
  Lemma nth_unfinished ts i sx : nth_error ts i = Some (mk_ftask sx FPending) -> map ft_simplex (filter (fun t => match ft_status t with FPending => true | _ => false end) ts) <> [].
  Proof. revert i. induction ts as [|[y [| |e]] ts IH]; intros [|i] H; cbn in *; try discriminate; try (eapply IH; eauto). Qed.
  Lemma done_soon_step i : fk_phase (k i) = FRunning -> done_soon (k i) -> (exists j, (i <= j)%nat /\ fover (k j)) \/ (done_soon (k (Datatypes.S i)) /\ fk_phase (k (Datatypes.S i)) = FRunning).
  Proof. intros Ph (E & U & L). destruct (ffr_step _ _ _ _ F i) as [_ Si]. destruct (ev i) as [pick|j r|j e| |pick]; cbn [fstep] in Si.
    - left. rewrite Ph in Si. injection Si as Si. destruct (over_draining (Datatypes.S i)) as (j & Lj & O).
      + rewrite <- Si. unfold fturn. rewrite E. cbn. rewrite L. reflexivity.
      + exists j. split; [lia|auto].
    - exfalso. destruct (nth_error (fk_tasks (k i)) j) as [[sx [| |e]]|] eqn:N; try discriminate. apply nth_unfinished in N. apply N, U.
    - exfalso. destruct (nth_error (fk_tasks (k i)) j) as [[sx [| |e']]|] eqn:N; try discriminate. apply nth_unfinished in N. apply N, U.
    - right. injection Si as <-. unfold done_soon. auto.
    - rewrite Ph in Si. discriminate. Qed.
  Lemma done_soon_over i : fk_phase (k i) = FRunning -> done_soon (k i) -> exists j, (i <= j)%nat /\ fover (k j).
  Proof. intros Ph D. destruct (next_turn i) as [X|(j & pick & L & Ej & Pj)]; auto.
    assert (G : forall n, (exists j, (i <= j)%nat /\ fover (k j)) \/ (done_soon (k (n + i)%nat) /\ fk_phase (k (n + i)%nat) = FRunning)).
    { induction n as [|n [IH|[IH1 IH2]]]; auto. destruct (done_soon_step _ IH2 IH1) as [(m & Lm & O)|X]; [left; exists m; split; [lia|auto]|right; exact X]. }
    destruct (G (j - i)%nat) as [X|[D' _]]; auto. replace (j - i + i)%nat with j in D' by lia.
    destruct (ffr_step _ _ _ _ F j) as [_ Si]. rewrite Ej in Si. cbn in Si. rewrite Pj in Si. injection Si as Si. destruct D' as (E & _ & LC).
    destruct (over_draining (Datatypes.S j)) as (m & Lm & O).
    - rewrite <- Si. unfold fturn. rewrite E. cbn. rewrite LC. reflexivity.
    - exists m. split; [lia|auto]. Qed.

  Variable B : nat.
  Hypothesis Bd : forall i, (nstarted i <= B)%nat.

  Lemma ends_from m : forall i, (B - nstarted i <= m)%nat -> exists j, (i <= j)%nat /\ fover (k j).
  Proof. induction m as [m IHm] using (well_founded_induction lt_wf). intros i Hm.
    assert (Grow : forall a b, (i <= a)%nat -> (a <= b)%nat -> nstarted a <> nstarted b -> exists j, (i <= j)%nat /\ fover (k j)).
    { intros a b La Lb N. pose proof (nstarted_le i a La) as [X1 _]. pose proof (nstarted_le a b Lb) as [X2 _]. pose proof (Bd b).
      destruct (IHm (B - nstarted b)%nat ltac:(lia) b ltac:(lia)) as (j & Lj & O). exists j. split; [lia|auto]. }
    (* wait until nothing is running *)
    assert (W : forall n a, (i <= a)%nat -> (List.length (funfinished (k a)) <= n)%nat -> (exists j, (i <= j)%nat /\ fover (k j)) \/
      exists b, (i <= b)%nat /\ fexceptions (fk_tasks (k b)) = [] /\ funfinished (k b) = []).
    { induction n as [|n IHn]; intros a La Ln; (destruct (fexceptions (fk_tasks (k a))) eqn:E;
        [|left; destruct (over_exceptions a) as (j & Lj & O); [congruence|exists j; split; [lia|auto]]]).
      - right. exists a. destruct (funfinished (k a)); [auto|cbn in Ln; lia].
      - destruct (funfinished (k a)) as [|x l] eqn:U; [right; exists a; auto|].
        destruct (ffr_ends _ _ _ _ F a x) as (b & Lb & Nx); [rewrite U; left; auto|].
        destruct (Nat.eq_dec (nstarted a) (nstarted b)) as [Es|Ns]; [|left; eapply Grow; eauto].
        apply (IHn b); [lia|]. pose proof (unfinished_shrinks a b Lb Es E) as Inc.
        assert (NoDup (x :: funfinished (k b))) by (constructor; auto; apply unfinished_nodup).
        assert (Inc' : incl (x :: funfinished (k b)) (funfinished (k a))) by (intros y [<- |Hy]; [rewrite U; left; auto|auto]).
        pose proof (NoDup_incl_length H Inc') as X. rewrite U in X. cbn in X, Ln. lia. }
    destruct (W _ i (Nat.le_refl _) (Nat.le_refl _)) as [X|(a & La & Ea & Ua)]; auto.
    destruct (next_turn a) as [(j & Lj & O)|(b & pick & Lb & Eb & Pb)]; [exists j; split; [lia|auto]|].
    destruct (fexceptions (fk_tasks (k b))) eqn:Exb; [|destruct (over_exceptions b) as (j & Lj & O); [congruence|exists j; split; [lia|auto]]].
    destruct (Nat.eq_dec (nstarted a) (nstarted (Datatypes.S b))) as [Es|Ns]; [|eapply (Grow a (Datatypes.S b)); eauto; lia].
    destruct (ffr_step _ _ _ _ F b) as [_ Si]. rewrite Eb in Si.
    destruct (progress g rs ps Q P s (k b) GC GS (fair_reaches b) pick _ Par Exb Si) as (E1 & Ph & Pr).
    assert (U1 : funfinished (k (Datatypes.S b)) = []). { pose proof (unfinished_shrinks a (Datatypes.S b) ltac:(lia) Es Ea) as Inc. rewrite Ua in Inc. destruct (funfinished (k (Datatypes.S b))) as [|x l]; [reflexivity|]. destruct (Inc x (or_introl eq_refl)). }
    assert (R0 : frunning_now (k (Datatypes.S b)) = 0%nat). { unfold frunning_now, funfinished in *. rewrite <- (map_length ft_simplex), U1. reflexivity. }
    destruct Ph as [Ph|Ph]; [|destruct (over_draining _ Ph) as (j & Lj & O); exists j; split; [lia|auto]].
    destruct (Pr R0) as [D|D]; [congruence|]. destruct (done_soon_over (Datatypes.S b) Ph) as (j & Lj & O); [|exists j; split; [lia|auto]].
    split; auto. split; auto. destruct (D 0%nat) as (k'' & St & Ph''). cbn in St. rewrite Ph in St. injection St as <-. unfold fturn in Ph''. rewrite E1 in Ph''. cbn [fsome_exception] in Ph''.
    destruct (floop_condition _); auto. destruct (ffill _ _ _ _ _) as [[[s1 t1] l1] [e|]]; cbn [fk_phase] in Ph''; discriminate. Qed.

  Lemma ends : exists j, fover (k j).
  Proof. destruct (ends_from B 0%nat) as (j & _ & O); [lia|eauto]. Qed.
End Fair.

