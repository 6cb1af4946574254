(** Every fair run with a bounded number of minimizations ends. *)
From Coq Require Import String.
From Verif Require Import Base BaseFacts CoordSys SpecGeom CoordSysFacts CellList Values Container SpecContainer ContainerFacts ContainerHist
  Queue QueueFacts SpecQueue Hdf5 SpecHdf5 NelderMead SpecMin Controller SpecSearch SpecRun ControllerFacts ControllerSteps SearchFacts SearchProps SearchRestart.
Open Scope list_scope.
Open Scope Qc_scope.

Section Fair.
  Variables (g : config) (rs : list result) (ps : list point) (Q : list simplex) (P : list point).
  Variables (s : controller_state) (file : option tree) (k : nat -> ctrl) (ev : nat -> event).
  Hypothesis GC : good_config g.
  Hypothesis GS : good_start g s rs ps Q P.
  Hypothesis F : fair_run g s file k ev.
  Hypothesis Par : (1 <= g_parallel g)%nat.

  Lemma fair_reaches i : reaches g s file (k i).
  Proof. induction i as [|i (evs & V & R)].
    - exists []. split; auto. cbn. rewrite (fr_start _ _ _ _ _ F). reflexivity.
    - destruct (fr_step _ _ _ _ _ F i) as [Vi Si]. exists (evs ++ [ev i]). split; [apply Forall_app; auto|].
      clear -R Si. revert R. generalize (start s file) as k0. induction evs as [|e evs IH]; cbn; intros k0 R.
      + injection R as ->. rewrite Si. reflexivity.
      + destruct (step g k0 e); [auto|discriminate]. Qed.
  Let I i : inv g rs ps Q P (mst (k i)) := proj1 (reach_kinv g rs ps Q P GC s file (k i) GS (fair_reaches i)).

  Lemma micro_log x y : micro g x y -> exists l, snd y = snd x ++ l.
  Proof. intros M. inversion M; subst; cbn [snd]; try (eexists; reflexivity); try (exists []; rewrite app_nil_r; reflexivity).
    unfold after_result. destruct (_ && _)%bool; cbn [snd]; rewrite <- ?app_assoc; eexists; reflexivity. Qed.
  Lemma micros_log x y : micros g x y -> exists l, snd y = snd x ++ l.
  Proof. induction 1 as [x|x y z M Ms (l & E)]; [exists []; rewrite app_nil_r; auto|]. destruct (micro_log _ _ M) as (l' & E').
    exists (l' ++ l). rewrite E, E', app_assoc. reflexivity. Qed.
  Lemma log_step i : exists l, k_log (k (Datatypes.S i)) = k_log (k i) ++ l.
  Proof. destruct (fr_step _ _ _ _ _ F i) as [Vi Si]. destruct (step_ok _ _ _ _ _ GC _ _ _ (I i) Vi Si) as [[M _]|(order & _ & M & _)].
    - exact (micros_log _ _ M).
    - exists []. rewrite app_nil_r. exact (f_equal snd M). Qed.
  Lemma log_le i j : (i <= j)%nat -> exists l, k_log (k j) = k_log (k i) ++ l.
  Proof. induction 1 as [|j L (l & E)]; [exists []; rewrite app_nil_r; auto|]. destruct (log_step j) as (l' & E'). exists (l ++ l'). rewrite E', E, app_assoc. reflexivity. Qed.

  Definition nstarted i : nat := List.length (started (k_log (k i))).
  Lemma nstarted_le i j : (i <= j)%nat -> (nstarted i <= nstarted j)%nat /\ (nstarted i = nstarted j -> started (k_log (k i)) = started (k_log (k j))).
  Proof. intros L. destruct (log_le i j L) as (l & E). unfold nstarted. rewrite E. unfold started. rewrite flat_map_app, app_length. split; [lia|].
    intros X. assert (Z : flat_map (fun a => match a with AStart s0 => [s0] | _ => [] end) l = []) by (destruct (flat_map _ l); cbn in X; [auto|lia]). rewrite Z, app_nil_r. auto. Qed.

  Lemma exceptions_le i j : (i <= j)%nat -> exceptions (k_tasks (k i)) <> [] -> exceptions (k_tasks (k j)) <> [].
  Proof. induction 1 as [|j L IH]; auto. intros E. specialize (IH E). destruct (fr_step _ _ _ _ _ F j) as [Vi Si].
    destruct (step_exceptions g rs ps Q P GC _ _ _ (I j) Vi Si) as (A & _). destruct (exceptions (k_tasks (k j))) as [|e es]; [congruence|].
    specialize (A e (or_introl eq_refl)). destruct (exceptions (k_tasks (k (Datatypes.S j)))); [destruct A|discriminate]. Qed.

  Lemma unfinished_open i : exceptions (k_tasks (k i)) = [] -> unfinished (k i) = in_flight (k i).
  Proof. unfold unfinished, in_flight, exceptions. induction (k_tasks (k i)) as [|[sx [| |e]] ts IH]; cbn; auto; try discriminate. intros E. f_equal. auto. Qed.
  Lemma unfinished_sub i : incl (unfinished (k i)) (in_flight (k i)).
  Proof. intros x. unfold unfinished, in_flight. rewrite !in_map_iff. intros (t & <- & H). exists t. split; auto. apply filter_In in H as [H X]. apply filter_In. split; auto. destruct (t_status t); auto. Qed.
  Lemma in_flight_nodup i : NoDup (in_flight (k i) ++ map fst (recorded (k_log (k i)))).
  Proof. eapply Permutation_NoDup; [apply (started_split g rs ps Q P s file (k i) GC GS (fair_reaches i))|]. apply (started_nodup g rs ps Q P s file (k i) GC GS (fair_reaches i)). Qed.
  Lemma unfinished_nodup i : NoDup (unfinished (k i)).
  Proof. pose proof (in_flight_nodup i) as N. apply nodup_app_l in N. revert N. unfold unfinished, in_flight.
    induction (k_tasks (k i)) as [|[sx [| |e]] ts IH]; cbn; auto; intros N; [|inversion N; subst; auto].
    inversion N as [|? ? Hx N']; subst. constructor; auto. intros X. apply Hx. clear -X. rewrite in_map_iff in *. destruct X as (t & E & X). exists t. split; auto.
    apply filter_In in X as [X Y]. apply filter_In. split; auto. destruct (t_status t); auto. Qed.
  Lemma unfinished_shrinks i j : (i <= j)%nat -> nstarted i = nstarted j -> exceptions (k_tasks (k i)) = [] -> incl (unfinished (k j)) (unfinished (k i)).
  Proof. intros L E Ex x Hx. rewrite unfinished_open by auto. apply unfinished_sub in Hx.
    assert (Hs : In x (started (k_log (k j)))). { eapply Permutation_in; [symmetry; apply (started_split g rs ps Q P s file (k j) GC GS (fair_reaches j))|]. apply in_app_iff. auto. }
    rewrite <- (proj2 (nstarted_le i j L) E) in Hs. apply (Permutation_in _ (started_split g rs ps Q P s file (k i) GC GS (fair_reaches i))) in Hs.
    apply in_app_iff in Hs as [Hs|Hs]; auto. exfalso. eapply nodup_app_disj; [apply (in_flight_nodup j)|exact Hx|].
    destruct (log_le i j L) as (l & El). rewrite El. unfold recorded. rewrite flat_map_app, map_app. apply in_app_iff. auto. Qed.

  (** the three ways to the end *)
  Lemma over_draining i : k_phase (k i) = Draining -> exists j, (i <= j)%nat /\ over (k j).
  Proof. intros Ph. destruct (fr_gather _ _ _ _ _ F i Ph) as (j & pick & L & E). exists (Datatypes.S j). split; [lia|].
    destruct (fr_step _ _ _ _ _ F j) as [_ Si]. rewrite E in Si. cbn in Si. destruct (k_phase (k j)); try discriminate. destruct (pending _); [|discriminate].
    injection Si as <-. unfold over. cbn. destruct (some_exception _ _); eauto. Qed.
  Lemma not_running i : k_phase (k i) <> Running -> exists j, (i <= j)%nat /\ over (k j).
  Proof. intros N. destruct (k_phase (k i)) eqn:Ph; [congruence|apply over_draining; auto| |]; exists i; (split; [lia|]); unfold over; eauto. Qed.
  Lemma next_turn i : (exists j, (i <= j)%nat /\ over (k j)) \/
    exists j pick, (i <= j)%nat /\ ev j = ETurn pick /\ k_phase (k j) = Running.
  Proof. destruct (k_phase (k i)) eqn:Ph; [|left; apply not_running; congruence..].
    destruct (fr_turn _ _ _ _ _ F i Ph) as (j & pick & L & E). destruct (k_phase (k j)) eqn:Pj.
    1: { right. exists j, pick. repeat split; auto. }
    all: left; destruct (not_running j ltac:(congruence)) as (m & Lm & O); exists m; split; [lia|auto]. Qed.
  Lemma over_exceptions i : exceptions (k_tasks (k i)) <> [] -> exists j, (i <= j)%nat /\ over (k j).
  Proof. intros E. destruct (next_turn i) as [X|(j & pick & L & Ej & Pj)]; auto.
    destruct (failure_surfaces g rs ps Q P s file (k j) GC GS (fair_reaches j) pick Pj (exceptions_le _ _ L E)) as (k' & e & St & Ph & _).
    destruct (fr_step _ _ _ _ _ F j) as [_ Si]. rewrite Ej in Si. rewrite Si in St. injection St as <-. exists (Datatypes.S j). split; [lia|]. right. eauto. Qed.

  Definition done_soon (x : ctrl) : Prop := exceptions (k_tasks x) = [] /\ unfinished x = [] /\ loop_condition (k_state x) = false.
  Lemma nth_unfinished ts i sx : nth_error ts i = Some (mk_task sx Pending) -> map t_simplex (filter (fun t => match t_status t with Pending => true | _ => false end) ts) <> [].
  Proof. revert i. induction ts as [|[y [| |e]] ts IH]; intros [|i] H; cbn in *; try discriminate; try (eapply IH; eauto). Qed.
  Lemma done_soon_step i : k_phase (k i) = Running -> done_soon (k i) -> (exists j, (i <= j)%nat /\ over (k j)) \/ (done_soon (k (Datatypes.S i)) /\ k_phase (k (Datatypes.S i)) = Running).
  Proof. intros Ph (E & U & L). destruct (fr_step _ _ _ _ _ F i) as [_ Si]. destruct (ev i) as [pick|j r|j e|order| |pick]; cbn [step] in Si.
    - left. rewrite Ph in Si. injection Si as Si. destruct (over_draining (Datatypes.S i)) as (j & Lj & O).
      + rewrite <- Si. unfold turn. rewrite E. cbn. rewrite L. reflexivity.
      + exists j. split; [lia|auto].
    - exfalso. destruct (nth_error (k_tasks (k i)) j) as [[sx [| |e]]|] eqn:N; try discriminate. apply nth_unfinished in N. apply N, U.
    - exfalso. destruct (nth_error (k_tasks (k i)) j) as [[sx [| |e']]|] eqn:N; try discriminate. apply nth_unfinished in N. apply N, U.
    - right. unfold done_soon, unfinished in *. destruct (needs_saving _); injection Si as Si; rewrite <- Si; cbn [k_tasks k_state k_phase]; auto.
    - right. injection Si as <-. unfold done_soon. auto.
    - rewrite Ph in Si. discriminate. Qed.
  Lemma done_soon_over i : k_phase (k i) = Running -> done_soon (k i) -> exists j, (i <= j)%nat /\ over (k j).
  Proof. intros Ph D. destruct (next_turn i) as [X|(j & pick & L & Ej & Pj)]; auto.
    assert (G : forall n, (exists j, (i <= j)%nat /\ over (k j)) \/ (done_soon (k (n + i)%nat) /\ k_phase (k (n + i)%nat) = Running)).
    { induction n as [|n [IH|[IH1 IH2]]]; auto. destruct (done_soon_step _ IH2 IH1) as [(m & Lm & O)|X]; [left; exists m; split; [lia|auto]|right; exact X]. }
    destruct (G (j - i)%nat) as [X|[D' _]]; auto. replace (j - i + i)%nat with j in D' by lia.
    destruct (fr_step _ _ _ _ _ F j) as [_ Si]. rewrite Ej in Si. cbn in Si. rewrite Pj in Si. injection Si as Si. destruct D' as (E & _ & LC).
    destruct (over_draining (Datatypes.S j)) as (m & Lm & O).
    - rewrite <- Si. unfold turn. rewrite E. cbn. rewrite LC. reflexivity.
    - exists m. split; [lia|auto]. Qed.

  Variable B : nat.
  Hypothesis Bd : forall i, (nstarted i <= B)%nat.

  Lemma ends_from m : forall i, (B - nstarted i <= m)%nat -> exists j, (i <= j)%nat /\ over (k j).
  Proof. induction m as [m IHm] using (well_founded_induction lt_wf). intros i Hm.
    assert (Grow : forall a b, (i <= a)%nat -> (a <= b)%nat -> nstarted a <> nstarted b -> exists j, (i <= j)%nat /\ over (k j)).
    { intros a b La Lb N. pose proof (nstarted_le i a La) as [X1 _]. pose proof (nstarted_le a b Lb) as [X2 _]. pose proof (Bd b).
      destruct (IHm (B - nstarted b)%nat ltac:(lia) b ltac:(lia)) as (j & Lj & O). exists j. split; [lia|auto]. }
    (* wait until nothing is running *)
    assert (W : forall n a, (i <= a)%nat -> (List.length (unfinished (k a)) <= n)%nat -> (exists j, (i <= j)%nat /\ over (k j)) \/
      exists b, (i <= b)%nat /\ exceptions (k_tasks (k b)) = [] /\ unfinished (k b) = []).
    { induction n as [|n IHn]; intros a La Ln; (destruct (exceptions (k_tasks (k a))) eqn:E;
        [|left; destruct (over_exceptions a) as (j & Lj & O); [congruence|exists j; split; [lia|auto]]]).
      - right. exists a. destruct (unfinished (k a)); [auto|cbn in Ln; lia].
      - destruct (unfinished (k a)) as [|x l] eqn:U; [right; exists a; auto|].
        destruct (fr_ends _ _ _ _ _ F a x) as (b & Lb & Nx); [rewrite U; left; auto|].
        destruct (Nat.eq_dec (nstarted a) (nstarted b)) as [Es|Ns]; [|left; eapply Grow; eauto].
        apply (IHn b); [lia|]. pose proof (unfinished_shrinks a b Lb Es E) as Inc.
        assert (NoDup (x :: unfinished (k b))) by (constructor; auto; apply unfinished_nodup).
        assert (Inc' : incl (x :: unfinished (k b)) (unfinished (k a))) by (intros y [<- |Hy]; [rewrite U; left; auto|auto]).
        pose proof (NoDup_incl_length H Inc') as X. rewrite U in X. cbn in X, Ln. lia. }
    destruct (W _ i (Nat.le_refl _) (Nat.le_refl _)) as [X|(a & La & Ea & Ua)]; auto.
    destruct (next_turn a) as [(j & Lj & O)|(b & pick & Lb & Eb & Pb)]; [exists j; split; [lia|auto]|].
    destruct (exceptions (k_tasks (k b))) eqn:Exb; [|destruct (over_exceptions b) as (j & Lj & O); [congruence|exists j; split; [lia|auto]]].
    destruct (Nat.eq_dec (nstarted a) (nstarted (Datatypes.S b))) as [Es|Ns]; [|eapply (Grow a (Datatypes.S b)); eauto; lia].
    destruct (fr_step _ _ _ _ _ F b) as [_ Si]. rewrite Eb in Si.
    destruct (progress g rs ps Q P s file (k b) GC GS (fair_reaches b) pick _ Par Exb Si) as (E1 & Ph & Pr).
    assert (U1 : unfinished (k (Datatypes.S b)) = []). { pose proof (unfinished_shrinks a (Datatypes.S b) ltac:(lia) Es Ea) as Inc. rewrite Ua in Inc. destruct (unfinished (k (Datatypes.S b))) as [|x l]; [reflexivity|]. destruct (Inc x (or_introl eq_refl)). }
    assert (R0 : running_now (k (Datatypes.S b)) = 0%nat). { unfold running_now, unfinished in *. rewrite <- (map_length t_simplex), U1. reflexivity. }
    destruct Ph as [Ph|Ph]; [|destruct (over_draining _ Ph) as (j & Lj & O); exists j; split; [lia|auto]].
    destruct (Pr R0) as [D|D]; [congruence|]. destruct (done_soon_over (Datatypes.S b) Ph) as (j & Lj & O); [|exists j; split; [lia|auto]].
    split; auto. split; auto. destruct (D 0%nat) as (k'' & St & Ph''). cbn in St. rewrite Ph in St. injection St as <-. unfold turn in Ph''. rewrite E1 in Ph''. cbn [some_exception] in Ph''.
    destruct (loop_condition _); auto. destruct (fill _ _ _ _ _) as [[[s1 t1] l1] [e|]]; cbn [k_phase] in Ph''; discriminate. Qed.

  Lemma ends : exists j, over (k j).
  Proof. destruct (ends_from B 0%nat) as (j & _ & O); [lia|eauto]. Qed.
End Fair.

Section Corollaries.
  Variables (g : config) (rs : list result) (ps : list point) (Q : list simplex) (P : list point).
  Variables (s : controller_state) (file : option tree) (k : nat -> ctrl) (ev : nat -> event).
  Hypothesis GC : good_config g.
  Hypothesis GS : good_start g s rs ps Q P.
  Hypothesis F : fair_run g s file k ev.
  Hypothesis Par : (1 <= g_parallel g)%nat.

  Lemma ends_periodic : periodic (g_cs g) = true -> 0 < g_cutoff g -> g_recheck g = true -> g_count_cutoff g = 0%nat -> exists j, over (k j).
  Proof. intros Per C Rc Cc. eapply (ends g rs ps Q P s file k ev GC GS F Par (List.length Q + packing_bound (g_cs g) (g_cutoff g) * stencil_size g)%nat). intros i.
    apply (bounded g rs ps Q P s file (k i) GC GS (fair_reaches g s file k ev F i)); auto. Qed.
  Lemma ends_unrefined : g_stencil g = None -> exists j, over (k j).
  Proof. intros N. eapply (ends g rs ps Q P s file k ev GC GS F Par (List.length Q)). intros i. unfold nstarted.
    pose proof (started_bound g rs ps Q P s file (k i) GC GS (fair_reaches g s file k ev F i)) as X. unfold stencil_size in X. rewrite N in X. lia. Qed.
End Corollaries.
