(** Saving and restarting. *)
From Coq Require Import String.
From Verif Require Import Base BaseFacts CoordSys SpecGeom CoordSysFacts CellList Values Container SpecContainer ContainerFacts ContainerHist
  Queue QueueFacts SpecQueue Hdf5 SpecHdf5 Hdf5Facts Controller SpecSearch ControllerFacts ControllerSteps SearchFacts SearchProps.
Open Scope list_scope.
Open Scope Qc_scope.

(** ** The unsaved flag *)
Lemma snapshot_refl s : snapshot_of s s.
Proof. constructor; auto. apply incl_refl. Qed.
Lemma snapshot_trans a b c : snapshot_of a b -> snapshot_of b c -> snapshot_of a c.
Proof. intros [A1 A2 A3 A4 A5] [B1 B2 B3 B4 B5]. constructor; try congruence; [etransitivity; eauto|eapply incl_tran; eauto]. Qed.

Section Save.
  Variables (g : config) (rs0 : list result) (ps0 : list point) (Q0 : list simplex) (P0 : list point).
  Hypothesis GC : good_config g.
  Notation inv := (inv g rs0 ps0 Q0 P0).

  Lemma micro_clean x y : inv x -> micro g x y -> needs_saving (fst (fst y)) = false ->
    needs_saving (fst (fst x)) = false /\ snapshot_of (fst (fst x)) (fst (fst y)).
  Proof. intros I M N. inversion M; subst; cbn [fst snd] in *.
    - destruct (pop_object_inv _ _ _ H0) as (E1 & E2 & E3 & E4). unfold needs_saving in *. cbn [with_position st_result st_simplex st_position] in *. rewrite E4 in N. split; auto.
      constructor; cbn; auto. intros p Hp. rewrite E1. right. auto.
    - unfold needs_saving in N. cbn [st_result] in N. unfold set_refined in H3. destruct (add_point _ _ _); [|discriminate]. injection H3 as <-. discriminate.
    - destruct (pop_running_inv _ _ _ H0) as (E1 & E2 & E3 & E4). unfold needs_saving in *. cbn [with_simplex st_result st_simplex st_position] in *. rewrite E4 in N. split; auto.
      constructor; cbn [with_simplex st_result st_simplex st_position]; auto; [|apply incl_refl].
      destruct (q_inv_pop norm_simplex (i_q _ _ _ _ _ _ I) H0) as (_ & NP). cbn [fst snd] in NP.
      rewrite E3. unfold set_add. rewrite (proj2 (mem_false sx (q_running (st_simplex s)))).
      + rewrite E1, <- app_assoc. reflexivity.
      + intros X. apply NP. eapply Permutation_in; [apply (qi_run (i_q _ _ _ _ _ _ I))|]. apply in_app_iff. auto.
    - destruct (set_finished_inv _ _ _ H2) as (F1 & F2 & F3 & F4 & F5). unfold needs_saving in N. cbn [with_simplex st_result st_simplex st_position] in N. rewrite F4 in N. rewrite orb_true_r in N. discriminate.
    - destruct (set_finished_inv _ _ _ H4) as (F1 & F2 & F3 & F4 & F5). unfold needs_saving, after_result in N. destruct (b && d)%bool; cbn [fst st_result st_simplex st_position] in N; rewrite F4, orb_true_r in N; discriminate.
    - split; auto using snapshot_refl.
    - split; auto using snapshot_refl. Qed.
  Lemma micros_clean x y : inv x -> micros g x y -> needs_saving (fst (fst y)) = false ->
    needs_saving (fst (fst x)) = false /\ snapshot_of (fst (fst x)) (fst (fst y)).
  Proof. intros I M. induction M as [x|x y z M1 M2 IH]; intros N; [split; auto using snapshot_refl|].
    destruct (IH (micro_inv _ _ _ _ _ GC _ _ I M1) N) as [A B]. destruct (micro_clean _ _ I M1 A) as [C D]. split; auto. eapply snapshot_trans; eauto. Qed.

  Definition saved_ok (k : ctrl) : Prop := needs_saving (k_state k) = false ->
    exists snap order, (forall l, Permutation (order l) l) /\ k_file k = Some (enc_state order snap) /\ snapshot_of snap (k_state k).

  Lemma reach_saved s file k : good_start g s rs0 ps0 Q0 P0 -> reaches g s file k -> saved_ok k.
  Proof. intros GS R. apply (reach_ind g rs0 ps0 Q0 P0 GC saved_ok s file GS); auto.
    - intros N. cbn in N. rewrite (gs_unsaved _ _ _ _ _ _ GS) in N. discriminate.
    - intros k0 ev k1 I S V St N. destruct (step_ok _ _ _ _ _ GC _ _ _ I V St) as [[M F]|(order & O & M & F)].
      + destruct (micros_clean _ _ I M N) as [A B]. cbn [mst fst] in *. destruct (S A) as (snap & order & H1 & H2 & H3). exists snap, order. split; auto. split; [congruence|]. eapply snapshot_trans; eauto.
      + exists (k_state k0), order. split; auto. split; auto. pose proof (f_equal (fun x : mstate => fst (fst x)) M) as E. cbn in E. rewrite E. constructor; cbn; auto. apply incl_refl. Qed.
End Save.

(** ** Re-creating a container from its own results *)
Lemma pos_of_set_pos r p : pos_of (set_pos r p) = p.
Proof. destruct r; reflexivity. Qed.
Lemma value_set_pos r p : value_of (set_pos r p) = value_of r /\ success_of (set_pos r p) = success_of r.
Proof. destruct r; split; reflexivity. Qed.
Lemma set_pos_twice r p q : set_pos (set_pos r p) q = set_pos r q.
Proof. destruct r; reflexivity. Qed.
Lemma stored_idem cs r : wf_box cs -> is_pos cs (pos_of r) -> stored cs (stored cs r) = stored cs r.
Proof. intros W H. unfold stored. rewrite pos_of_set_pos, set_pos_twice, normalize_idem; auto. Qed.
Lemma is_node_stored cs gap r : is_node gap (stored cs r) = is_node gap r.
Proof. unfold is_node, stored. destruct (value_set_pos r (normalize_position cs (pos_of r))) as [-> ->]. reflexivity. Qed.

Lemma recreate cs gap cutoff rs ps c : wf_box cs -> history cs gap cutoff rs ps c ->
  exists c', container_new cs gap cutoff (minimization_results c) (cl_flat (c_refined c)) = Ok c' /\
    history cs gap cutoff (minimization_results c) (cl_flat (c_refined c)) c' /\ c_needs_saving c' = true /\
    cl_flat (c_nodes c') = cl_flat (c_nodes c) /\ c_rejected c' = c_rejected c /\ cl_flat (c_refined c') = cl_flat (c_refined c).
Proof. intros W H. destruct (hist_classification W H) as (A & B & C & _).
  pose proof (history_represents W H) as R0. destruct R0 as (G & C1 & _ & _ & _ & _ & C6).
  assert (PS : Forall (is_pos cs) (cl_flat (c_refined c))). { pose proof (cg_pos_r G) as X. rewrite C1 in X. exact X. }
  assert (RS : forall r, In r (minimization_results c) -> exists r0, In r0 rs /\ r = stored cs r0 /\ is_pos cs (pos_of r0)).
  { intros r Hr. unfold minimization_results in Hr. rewrite A, B in Hr. apply in_app_iff in Hr as [Hr|Hr]; apply filter_In in Hr as [Hr _]; apply in_map_iff in Hr as (r0 & <- & Hr0); exists r0; split; auto; split; auto; eapply hist_stored_pos; eauto. }
  assert (RP : Forall (fun r => is_pos cs (pos_of r)) (minimization_results c)).
  { apply Forall_forall. intros r Hr. destruct (RS r Hr) as (r0 & _ & -> & Hp). unfold stored. rewrite pos_of_set_pos. apply normalize_length. auto. }
  destruct (@container_new_ok cs gap cutoff (minimization_results c) (cl_flat (c_refined c)) W RP PS) as (c' & E & _ & N).
  assert (H' : history cs gap cutoff (minimization_results c) (cl_flat (c_refined c)) c') by (apply hist_new; auto).
  exists c'. split; auto. split; auto. split; auto. destruct (hist_classification W H') as (A' & B' & C' & _).
  assert (Sm : map (stored cs) (minimization_results c) = minimization_results c).
  { rewrite <- (map_id (minimization_results c)) at 2. apply map_ext_in. intros r Hr. destruct (RS r Hr) as (r0 & _ & -> & Hp). apply stored_idem; auto. }
  rewrite A', B', C', Sm. unfold minimization_results. rewrite !filter_app.
  assert (N1 : forall f : result -> bool, (forall r, In r (cl_flat (c_nodes c)) -> f r = is_node gap r) -> filter f (cl_flat (c_nodes c)) = cl_flat (c_nodes c)).
  { intros f Hf. rewrite (filter_ext_in f (fun _ => true)); [clear; induction (cl_flat (c_nodes c)); cbn; congruence|]. intros r Hr. rewrite Hf; auto. rewrite A in Hr. apply filter_In in Hr. tauto. }
  assert (N2 : forall l (f : result -> bool), (forall r, In r l -> f r = true) -> filter f l = l).
  { intros l f Hf. induction l as [|a l IH]; cbn; auto. rewrite Hf; [|left; auto]. f_equal. apply IH. intros; apply Hf; right; auto. }
  assert (N3 : forall l (f : result -> bool), (forall r, In r l -> f r = false) -> filter f l = []).
  { intros l f Hf. induction l as [|a l IH]; cbn; auto. rewrite Hf; [|left; auto]. apply IH. intros; apply Hf; right; auto. }
  split; [|split; auto].
  - rewrite N1 by auto. rewrite N3; [apply app_nil_r|]. intros r Hr. rewrite B in Hr. apply filter_In in Hr as [_ Hr]. apply negb_true_iff in Hr. auto.
  - rewrite (N3 (cl_flat (c_nodes c))), (N2 (c_rejected c)); [reflexivity| |].
    + intros r Hr. rewrite B in Hr. apply filter_In in Hr. tauto.
    + intros r Hr. rewrite A in Hr. apply filter_In in Hr as [_ ->]. reflexivity. Qed.

Lemma waiting_new {A} `{EqDec A} (norm : A -> A) l : NoDup l -> Forall (fun x => norm x = x) l -> waiting norm (queue_new norm l) l.
Proof. intros N F. assert (E : map norm l = l). { rewrite <- (map_id l) at 2. apply map_ext_in. intros x Hx. rewrite Forall_forall in F. auto. }
  unfold waiting, queue_new. cbn. rewrite E. repeat split; auto; apply in_dedup. Qed.

Section Restart.
  Variables (g : config) (rs : list result) (ps : list point) (Q : list simplex) (P : list point).
  Variables (s : controller_state) (file : option tree) (k : ctrl).
  Hypothesis GC : good_config g.
  Hypothesis GS : good_start g s rs ps Q P.
  Hypothesis R : reaches g s file k.
  Hypothesis OP : Forall (own_position (g_cs g)) rs.
  Hypothesis CP : Forall (child_pos (g_cs g)) rs.
  Let cs := g_cs g.
  Let I : inv g rs ps Q P (mst k) := proj1 (reach_kinv g rs ps Q P GC s file k GS R).

  Lemma all_own : Forall (own_position cs) (rs ++ map snd (recorded (k_log k))) /\ Forall (child_pos cs) (rs ++ map snd (recorded (k_log k))).
  Proof. assert (F : forall r, In r (map snd (recorded (k_log k))) -> fresh_result cs r).
    { intros r Hr. apply in_map_iff in Hr as ([x r'] & <- & Hr). apply in_flat_map in Hr as (a & Ha & Hx). apply in_split in Ha as (l1 & l2 & E).
      destruct a; cbn in Hx; try contradiction. destruct Hx as [Hx|[]]. injection Hx as <- <-. cbn [snd].
      pose proof (proj1 (proj2 (reach_kinv g rs ps Q P GC s file k GS R))) as L. destruct (L _ _ _ E) as [_ X]. exact X. }
    split; apply Forall_app; split; auto; apply Forall_forall; intros r Hr; apply F in Hr; destruct r as [m|c a [o|]]; cbn in *; auto; destruct Hr; auto; discriminate. Qed.

  Lemma objects_facts order : (forall l, Permutation (order l) l) ->
    Permutation (objects order (st_simplex (k_state k))) (q_queued (st_simplex (k_state k)) ++ in_flight k) /\
    NoDup (objects order (st_simplex (k_state k))) /\ Forall (fun x => norm_simplex x = x) (objects order (st_simplex (k_state k))) /\
    Forall (Forall (is_pos cs)) (objects order (st_simplex (k_state k))) /\
    (forall x, In x (objects order (st_simplex (k_state k))) -> In x (map fst (recorded (k_log k))) -> False) /\
    (forall x, In x (objects order (st_simplex (k_state k))) -> In x (discarded (k_log k)) -> False).
  Proof. intros O. pose proof (partition g rs ps Q P s file k GC GS R) as Pa. pose proof (first_occ_nodup [] (Q ++ refinements g (k_log k))) as N.
    apply (Permutation_NoDup (Permutation_sym Pa)) in N.
    assert (E : Permutation (objects order (st_simplex (k_state k))) (q_queued (st_simplex (k_state k)) ++ in_flight k)).
    { unfold objects. rewrite O, (tasks_perm g rs ps Q P s file k GC GS R). apply Permutation_app_comm. }
    rewrite app_assoc in N.
    assert (Sub : forall x, In x (objects order (st_simplex (k_state k))) -> In x (Q ++ refinements g (k_log k))).
    { intros x Hx. apply (scheduled_set g rs ps Q P s file k GC GS R). apply (Permutation_in _ E) in Hx. apply in_app_iff in Hx. tauto. }
    pose proof (i_norm _ _ _ _ _ _ I) as IN. pose proof (i_verts _ _ _ _ _ _ I) as IV. rewrite Forall_forall in IN, IV.
    split; auto. split; [eapply Permutation_NoDup; [symmetry; exact E|]; eapply nodup_app_l; eauto|].
    split; [apply Forall_forall; intros x Hx; apply IN; auto|]. split; [apply Forall_forall; intros x Hx; apply IV; auto|].
    split; intros x Hx Hy; apply (Permutation_in _ E) in Hx; eapply nodup_app_disj; eauto; apply in_app_iff; auto. Qed.

  Lemma restart order order' quiet mesh t : (forall l, Permutation (order l) l) -> (forall l, Permutation (order' l) l) ->
    same_file (enc_state order (k_state k)) t ->
    exists s', create_state order' (g_cs g) (g_gap g) (g_cutoff g) None true quiet (dec_state t) mesh false = Ok s' /\
      good_start g s' (minimization_results (st_result (k_state k))) (cl_flat (c_refined (st_result (k_state k))))
        (objects order (st_simplex (k_state k))) (q_queued (st_position (k_state k))) /\
      cl_flat (c_nodes (st_result s')) = cl_flat (c_nodes (st_result (k_state k))) /\
      c_rejected (st_result s') = c_rejected (st_result (k_state k)) /\
      cl_flat (c_refined (st_result s')) = cl_flat (c_refined (st_result (k_state k))).
  Proof. intros O O' S. destruct all_own as [AO AC]. pose proof (i_hist _ _ _ _ _ _ I) as HH. cbn [mst fst snd] in HH.
    rewrite (loads_state _ _ _ _ _ _ order (gc_box g GC) HH AO AC t S).
    unfold create_state. cbn [bind st_result st_simplex st_position set_c_needs_saving].
    change (minimization_results (set_c_needs_saving (st_result (k_state k)) true)) with (minimization_results (st_result (k_state k))). cbn [c_refined].
    destruct (recreate _ _ _ _ _ _ (gc_box g GC) HH) as (c' & E & H' & N & R1 & R2 & R3). unfold set_c_needs_saving. cbn [c_refined c_nodes c_rejected].
    change (minimization_results _) with (minimization_results (st_result (k_state k))) at 1. rewrite E. cbn [bind].
    eexists. split; [reflexivity|]. cbn [st_result]. split; [|auto].
    destruct (objects_facts order O) as (F1 & F2 & F3 & F4 & _).
    pose proof (i_prun _ _ _ _ _ _ I) as PR. cbn [mst fst] in PR.
    assert (Eo : objects order' (queue_new norm_simplex (objects order (st_simplex (k_state k)))) = objects order (st_simplex (k_state k))).
    { destruct (waiting_new norm_simplex _ F2 F3) as (W1 & W2 & _). unfold objects at 1. rewrite W1, W2. pose proof (O' []) as X. apply Permutation_sym, Permutation_nil in X. rewrite X. reflexivity. }
    assert (Ep : objects (fun l : list point => l) (queue_new norm_pos (objects (fun l => l) (st_position (k_state k)))) = q_queued (st_position (k_state k))).
    { unfold objects at 1. cbn. unfold objects. rewrite PR. cbn. apply map_id. }
    constructor; cbn [st_result st_simplex st_position].
    - exact H'.
    - rewrite Eo. apply waiting_new; auto.
    - rewrite Ep. apply waiting_new; [apply (i_pnd _ _ _ _ _ _ I)|]. apply Forall_forall. reflexivity.
    - exact F4.
    - apply (i_pos _ _ _ _ _ _ I).
    - apply (i_none _ _ _ _ _ _ I).
    - unfold needs_saving. cbn [st_result]. rewrite N. reflexivity. Qed.
End Restart.

(** A state with nothing pending: the run does nothing. *)
Lemma nothing_to_do g s rs ps file k : good_config g -> good_start g s rs ps [] [] -> reaches g s file k ->
  k_log k = [] /\ k_tasks k = [] /\ cl_flat (c_nodes (st_result (k_state k))) = cl_flat (c_nodes (st_result s)).
Proof. intros GC GS R.
  assert (H : inv g rs ps [] [] (mst k) /\ (k_log k = [] /\ k_tasks k = [] /\ loop_condition (k_state k) = false)).
  { apply (reach_ind g rs ps [] [] GC (fun k => k_log k = [] /\ k_tasks k = [] /\ loop_condition (k_state k) = false) s file GS); auto.
    - destruct GS as [_ (A & B & _) (C & D & _) _ _ _ _]. cbn. repeat split; auto. unfold loop_condition, finished, objects, has_queued. rewrite A, B, C. reflexivity.
    - intros k0 ev k1 I (L & T & LC) V S. destruct ev as [pick|i r|i e|order| |pick]; cbn [step] in S; rewrite ?T in S; cbn in S; try (destruct i; discriminate).
      + destruct (k_phase k0); try discriminate. injection S as <-. unfold turn. rewrite T. cbn. rewrite LC. cbn. auto.
      + destruct (needs_saving (k_state k0)); injection S as <-; cbn; auto.
      + injection S as <-. auto.
      + destruct (k_phase k0); try discriminate. injection S as <-. cbn. auto. }
  destruct H as (I & L & T & _). split; auto. split; auto.
  destruct (hist_classification (gc_box g GC) (i_hist _ _ _ _ _ _ I)) as (A & _). destruct (hist_classification (gc_box g GC) (gs_result _ _ _ _ _ _ GS)) as (B & _).
  cbn [mst fst snd] in A. rewrite A, B, L. cbn. rewrite app_nil_r. reflexivity. Qed.

(** ** Failures *)
Section Failures.
  Variables (g : config) (rs : list result) (ps : list point) (Q : list simplex) (P : list point).
  Hypothesis GC : good_config g.
  Notation inv := (inv g rs ps Q P).

  Lemma step_exceptions k ev k' : inv (mst k) -> valid_event (g_cs g) ev -> step g k ev = Some k' ->
    (forall e, In e (exceptions (k_tasks k)) -> In e (exceptions (k_tasks k'))) /\
    (forall e, In e (exceptions (k_tasks k')) -> In e (exceptions (k_tasks k)) \/ exists i, ev = EFail i e) /\
    (forall i e, ev = EFail i e -> In e (exceptions (k_tasks k'))).
  Proof. intros I V S.
    assert (New : forall tasks i st sx e, nth_error tasks i = Some (mk_task sx Pending) -> In e (exceptions (set_status i st tasks)) -> In e (exceptions tasks) \/ st = Failed e).
    { clear. induction tasks as [|t ts IH]; intros [|i] st sx e E H; cbn in *; try discriminate.
      - injection E as ->. apply in_app_iff in H as [H|H]; [right|left; auto]. cbn in H. destruct st; try contradiction. destruct H as [-> |[]]. auto.
      - apply in_app_iff in H as [H|H]; [left; apply in_app_iff; auto|]. destruct (IH i st sx e E H); auto. left. apply in_app_iff. auto. }
    assert (Set' : forall tasks i sx e, nth_error tasks i = Some (mk_task sx Pending) -> In e (exceptions (set_status i (Failed e) tasks))).
    { clear. induction tasks as [|t ts IH]; intros [|i] sx e E; cbn in *; try discriminate; [left; auto|]. apply in_app_iff. right. eauto. }
    destruct ev as [pick|i r|i e|order| |pick]; cbn [step] in S.
    - destruct (k_phase k) eqn:Ph; try discriminate. injection S as <-. destruct (turn_ok _ _ _ _ _ GC k pick I) as (_ & H). destruct (exceptions (k_tasks k)) eqn:E.
      + destruct H as (_ & H & _). rewrite H. repeat split; auto; try discriminate.
      + destruct H as (e0 & _ & _ & H). pose proof (f_equal (fun x : mstate => snd (fst x)) H) as H'. cbn in H'. rewrite H', E. repeat split; auto; discriminate.
    - destruct (nth_error (k_tasks k) i) as [[sx [| |e]]|] eqn:E; try discriminate. injection S as <-.
      destruct (finish_ok _ _ _ _ _ GC k i sx r I V E) as (_ & _ & _ & ->). repeat split; try discriminate.
      + intros e. eapply exceptions_set_status; eauto.
      + intros e H. destruct (New _ _ _ _ _ E H); auto. discriminate.
    - destruct (nth_error (k_tasks k) i) as [[sx [| |e']]|] eqn:E; try discriminate. injection S as <-. cbn. repeat split.
      + intros e0. eapply exceptions_set_status; eauto.
      + intros e0 H. destruct (New _ _ _ _ _ E H) as [|[= <-]]; eauto.
      + intros i0 e0 [= <- <-]. eapply Set'; eauto.
    - destruct (needs_saving (k_state k)); injection S as <-; cbn; repeat split; auto; discriminate.
    - injection S as <-. repeat split; auto; discriminate.
    - destruct (k_phase k); try discriminate. destruct (pending (k_tasks k)); [|discriminate]. injection S as <-. cbn. repeat split; auto; discriminate. Qed.

  Lemma run_exceptions evs : forall k k', inv (mst k) -> Forall (valid_event (g_cs g)) evs -> run_events g k evs = Some k' ->
    (forall e, In e (exceptions (k_tasks k)) -> In e (exceptions (k_tasks k'))) /\
    (forall e, In e (exceptions (k_tasks k')) -> In e (exceptions (k_tasks k)) \/ exists i, In (EFail i e) evs) /\
    (forall i e, In (EFail i e) evs -> In e (exceptions (k_tasks k'))).
  Proof. induction evs as [|ev evs IH]; intros k k' I V R; cbn [run_events] in R.
    - injection R as <-. repeat split; auto. intros i e [].
    - inversion V as [|? ? Hv Hvs]; subst. destruct (step g k ev) as [k1|] eqn:S; [|discriminate].
      destruct (step_exceptions _ _ _ I Hv S) as (A & B & C). destruct (IH k1 k' (step_inv _ _ _ _ _ GC _ _ _ I Hv S) Hvs R) as (A' & B' & C').
      repeat split; auto.
      + intros e H. destruct (B' e H) as [X|(i & X)]; [|right; exists i; right; auto]. destruct (B e X) as [|(i & ->)]; [auto|]. right. exists i. left. auto.
      + intros i e [-> |H]; eauto. Qed.

  Lemma failures s file evs k : good_start g s rs ps Q P -> Forall (valid_event (g_cs g)) evs -> run_events g (start s file) evs = Some k ->
    (forall e, k_phase k = Raised e -> exists i, In (EFail i e) evs) /\
    (forall i e, In (EFail i e) evs -> k_phase k = Running \/ exists e', k_phase k = Raised e') /\
    (forall i e pick, In (EFail i e) evs -> k_phase k = Running -> exists k' j e', step g k (ETurn pick) = Some k' /\ k_phase k' = Raised e' /\ In (EFail j e') evs).
  Proof. intros GS V Rn. assert (R : reaches g s file k) by (exists evs; auto).
    destruct (reach_kinv g rs ps Q P GC s file k GS R) as (I & (_ & _ & KP)).
    destruct (run_exceptions evs _ _ (start_inv g rs ps Q P s file GS) V Rn) as (_ & B & C).
    assert (B' : forall e, In e (exceptions (k_tasks k)) -> exists i, In (EFail i e) evs) by (intros e H; destruct (B e H) as [[]|X]; auto).
    split; [|split].
    - intros e Ph. rewrite Ph in KP. auto.
    - intros i e H. apply C in H. destruct (k_phase k) eqn:Ph; eauto; destruct KP as [KP _]; rewrite KP in H; destruct H.
    - intros i e pick H Ph. apply C in H.
      destruct (failure_surfaces g rs ps Q P s file k GC GS R pick Ph) as (k' & e' & S & Ph' & He & _).
      + intros X. rewrite X in H. destruct H.
      + destruct (B' e' He) as (j & Hj). exists k', j, e'. auto. Qed.
End Failures.
